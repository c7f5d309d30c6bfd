(** Model of nn/halo_exchange.py, backends/mpi/halo_exchange.py and
    backends/mpi/functional/halo_exchange.py.

    Workers are named by their ranks in the root communicator.  dtypes and
    devices are not modelled.  The staging buffers are values: C22-C24 are about
    the memory behind them. *)

From Verif Require Import Prelude ModelSlicing ModelDecomposition ModelPartition Ring Tensor
  P2P Rounds ModelHaloMixin ModelRepartition.

(** The four slices of one dimension: left bulk, left ghost, right bulk, right
    ghost (nn/halo_exchange.py:44 and 97). *)
Record hslices := mkhs {
  lbs : list slice;
  lgs : list slice;
  rbs : list slice;
  rgs : list slice
}.

(** nn/halo_exchange.py:37-99 [_assemble_slices]. *)
Definition assemble_halo_slices (x_local_shape : list Z) (recv send : list (Z * Z)) : list hslices :=
  let dim := length x_local_shape in
  vec dim (fun i =>
    let cut (own : Z -> Z -> Z -> Z -> Z -> slice) : list slice :=
      vec dim (fun j =>
        let s := nth j x_local_shape 0 in
        let lrecv := fst (nth j recv (0, 0)) in
        let lsend := fst (nth j send (0, 0)) in
        let rrecv := snd (nth j recv (0, 0)) in
        let rsend := snd (nth j send (0, 0)) in
        if (j <? i)%nat then (0, s)
        else if (j =? i)%nat then own s lrecv lsend rrecv rsend
        else (lrecv, s - rrecv)) in
    mkhs (cut (fun s lrecv lsend rrecv rsend => (lrecv, lrecv + lsend)))
         (cut (fun s lrecv lsend rrecv rsend => (0, lrecv)))
         (cut (fun s lrecv lsend rrecv rsend => (s - (rrecv + rsend), s - rrecv)))
         (cut (fun s lrecv lsend rrecv rsend => (s - rrecv, s)))).

(** backends/mpi/halo_exchange.py:22-38: [buff is not None] for a slice, of which
    [size] layers are exchanged. *)
Definition has_buffer (size : Z) (sl : list slice) : bool :=
  (0 <? size) && (0 <? zprod (compute_nd_slice_shape sl)).

(** What a worker works with in one dimension: slices, presence of the four
    buffers, neighbours (functional/halo_exchange.py:33-44). *)
Record hdim := mkhdim {
  d_sl : hslices;
  d_lb : bool;
  d_lg : bool;
  d_rb : bool;
  d_rg : bool;
  d_left : Z;
  d_right : Z
}.

Section Layer.
  Variable P : part.
  Variable shape : Z -> list Z.                  (* local input shape of each worker *)
  Variables recv send : Z -> list (Z * Z).       (* recv_buffer_shape, send_buffer_shape *)

  (** MPI.PROC_NULL.  An exchange with it is never completed in the model; the
      plans of the layers have none. *)
  Definition proc_null : Z := -1.

  (** nn/halo_exchange.py:16-18 and functional/halo_exchange.py:44, 54-57: the
      neighbours by rank in P_x's communicator. *)
  Definition halo_neighbors (v : Z) : list (Z * Z) :=
    match rank_in (p_ranks P) v with
    | None => []
    | Some r =>
        match neighbor_ranks P true r with
        | Raise _ => []
        | Ok l => let world o := match o with
                                 | Some q => nth (Z.to_nat q) (p_ranks P) 0
                                 | None => proc_null
                                 end in
                  map (fun lr => (world (fst lr), world (snd lr))) l
        end
    end.

  (** nn/halo_exchange.py:101-113 [_distdl_module_setup]. *)
  Definition halo_dim (v : Z) (i : nat) : hdim :=
    let hs := nth i (assemble_halo_slices (shape v) (recv v) (send v)) (mkhs [] [] [] []) in
    let r := nth i (recv v) (0, 0) in
    let s := nth i (send v) (0, 0) in
    let n := nth i (halo_neighbors v) (proc_null, proc_null) in
    mkhdim hs (has_buffer (fst s) (lbs hs)) (has_buffer (fst r) (lgs hs))
           (has_buffer (snd s) (rbs hs)) (has_buffer (snd r) (rgs hs)) (fst n) (snd n).

  (** One of the four requests of a dimension: whether it is posted, the partner,
      the tag, and the slice of the tensor that its buffer holds
      (functional/halo_exchange.py:51-57). *)
  Record link := mklink { k_on : bool; k_peer : Z; k_tag : Z; k_sl : list slice }.
  (** functional/halo_exchange.py:51 and 117. *)
  Definition ltag : Z := 0.
  (** functional/halo_exchange.py:52 and 118. *)
  Definition rtag : Z := 1.

  (** [lrecv_req, rrecv_req, lsend_req, rsend_req] in
      functional/halo_exchange.py:51-57 (forward)... *)
  Definition fwd_lrecv (d : hdim) : link := mklink (d_lg d) (d_left d) rtag (lgs (d_sl d)).
  Definition fwd_rrecv (d : hdim) : link := mklink (d_rg d) (d_right d) ltag (rgs (d_sl d)).
  Definition fwd_lsend (d : hdim) : link := mklink (d_lb d) (d_left d) ltag (lbs (d_sl d)).
  Definition fwd_rsend (d : hdim) : link := mklink (d_rb d) (d_right d) rtag (rbs (d_sl d)).
  (** ... and 117-123 (backward). *)
  Definition bwd_lrecv (d : hdim) : link := mklink (d_lb d) (d_left d) rtag (lbs (d_sl d)).
  (** functional/halo_exchange.py:121. *)
  Definition bwd_rrecv (d : hdim) : link := mklink (d_rb d) (d_right d) ltag (rbs (d_sl d)).
  (** functional/halo_exchange.py:122. *)
  Definition bwd_lsend (d : hdim) : link := mklink (d_lg d) (d_left d) ltag (lgs (d_sl d)).
  (** functional/halo_exchange.py:123. *)
  Definition bwd_rsend (d : hdim) : link := mklink (d_rg d) (d_right d) rtag (rgs (d_sl d)).

  Section Function.
    Context {R : CRing}.
    Notation tensor := (tensor R).

    (** [h_t] is the tensor modified in place, [h_l] and [h_r] the buffers that
        are sent to the left and to the right; [h_hist] collects the results of
        the calls (functional/halo_exchange.py:26-77). *)
    Record hst := mkhst {
      h_t : tensor;
      h_l : tensor;
      h_r : tensor;
      h_hist : list tensor
    }.
    Notation action := (@action hst tensor).

    (** Assignment to the tensor, functional/halo_exchange.py:68. *)
    Definition set_t (t : tensor) (s : hst) : hst := mkhst t (h_l s) (h_r s) (h_hist s).
    (** Assignment to the left buffer, functional/halo_exchange.py:47. *)
    Definition set_l (t : tensor) (s : hst) : hst := mkhst (h_t s) t (h_r s) (h_hist s).
    (** Assignment to the right buffer, functional/halo_exchange.py:49. *)
    Definition set_r (t : tensor) (s : hst) : hst := mkhst (h_t s) (h_l s) t (h_hist s).

    (** [t[sl] = 0] and [t[sl] += m], as [write_slice]
        (functional/halo_exchange.py:112 and 115). *)
    Definition zero_slice (t : tensor) (sl : list slice) : tensor :=
      mkt (tshape t) (fun i => if in_slice sl i then rzero else tat t i).
    (** functional/halo_exchange.py:134 and 136. *)
    Definition add_slice (t : tensor) (sl : list slice) (m : tensor) : tensor :=
      if zlist_eqb (tshape m) (compute_nd_slice_shape sl) then
        mkt (tshape t)
            (fun i => if in_slice sl i then radd (tat t i) (tat m (map2 (fun s k => k - fst s) sl i))
                      else tat t i)
      else t.

    (** One dimension of either function: fill the buffers to be sent, post the
        four requests (a null request where there is no buffer), complete them;
        a completed receive is unpacked
        (functional/halo_exchange.py:46-70). *)
    Definition local_if (b : bool) (f : hst -> hst) : action := ALocal (fun s => if b then f s else s).
    (** Irecv and unpacking, functional/halo_exchange.py:54-55 and 63-70. *)
    Definition recv_link (unpack : list slice -> tensor -> tensor -> tensor) (k : link) : action :=
      if k_on k then ARecv (k_peer k) (k_tag k) (fun m s => set_t (unpack (k_sl k) m (h_t s)) s) else ANull.
    (** Isend, functional/halo_exchange.py:56-57. *)
    Definition send_link (buffer : hst -> tensor) (k : link) : action :=
      if k_on k then ASend (k_peer k) (k_tag k) buffer else ANull.

    (** functional/halo_exchange.py:46-70, 110-136. *)
    Definition exchange (pack : (tensor -> hst -> hst) -> list slice -> hst -> hst)
        (unpack : list slice -> tensor -> tensor -> tensor) (lrecv rrecv lsend rsend : link) : list action :=
      [ local_if (k_on lsend) (pack set_l (k_sl lsend));
        local_if (k_on rsend) (pack set_r (k_sl rsend));
        recv_link unpack lrecv; recv_link unpack rrecv;
        send_link h_l lsend; send_link h_r rsend ].

    (** Nothing is exchanged on a single worker (functional/halo_exchange.py:28
        and 90) or outside the partition (nn/halo_exchange.py:144-145). *)
    Definition takes_part (v : Z) : bool :=
      is_active (p_ranks P) v && negb (Nat.eqb (length (p_ranks P)) 1).

    (** functional/halo_exchange.py:46-49 and 67-70. *)
    Definition fwd_pack (set : tensor -> hst -> hst) (sl : list slice) (s : hst) : hst :=
      set (read_slice (h_t s) sl) s.
    (** functional/halo_exchange.py:67-70. *)
    Definition fwd_unpack (sl : list slice) (m t : tensor) : tensor := write_slice t sl m.

    (** functional/halo_exchange.py:32-72. *)
    Definition forward_round (i : nat) (v : Z) : list action :=
      if takes_part v then
        let d := halo_dim v i in
        exchange fwd_pack fwd_unpack (fwd_lrecv d) (fwd_rrecv d) (fwd_lsend d) (fwd_rsend d)
      else [].

    (** functional/halo_exchange.py:110-115 and 133-136. *)
    Definition bwd_pack (set : tensor -> hst -> hst) (sl : list slice) (s : hst) : hst :=
      set_t (zero_slice (h_t s) sl) (set (read_slice (h_t s) sl) s).
    (** functional/halo_exchange.py:133-136. *)
    Definition bwd_unpack (sl : list slice) (m t : tensor) : tensor := add_slice t sl m.

    (** functional/halo_exchange.py:96-138. *)
    Definition backward_round (i : nat) (v : Z) : list action :=
      if takes_part v then
        let d := halo_dim v i in
        exchange bwd_pack bwd_unpack (bwd_lrecv d) (bwd_rrecv d) (bwd_lsend d) (bwd_rsend d)
      else [].

    (** A history of calls of one layer: the argument on every worker
        (nn/halo_exchange.py:140-151). *)
    Inductive call :=
    | HForward (x : Z -> tensor)
    | HBackward (dy : Z -> tensor).

    (** The argument of a call, nn/halo_exchange.py:140. *)
    Definition load_round (x : Z -> tensor) (v : Z) : list action :=
      [ALocal (fun s => set_t (x v) s)].
    (** Its result, nn/halo_exchange.py:147-151. *)
    Definition store_round (v : Z) : list action :=
      [ALocal (fun s => mkhst (h_t s) (h_l s) (h_r s) (h_hist s ++ [h_t s]))].

    (** functional/halo_exchange.py:31-32 and 95-96: the dimensions in order, and in reverse order. *)
    Definition call_rounds (c : call) : list (@round hst tensor) :=
      let dim := length (p_shape P) in
      match c with
      | HForward x => [load_round x] ++ map forward_round (seq 0 dim) ++ [store_round]
      | HBackward dy => [load_round dy] ++ map backward_round (rev (seq 0 dim)) ++ [store_round]
      end.

    (** Several calls of nn/halo_exchange.py:140-151. *)
    Definition history_rounds (cs : list call) : list (@round hst tensor) := flat_map call_rounds cs.
  End Function.
End Layer.
