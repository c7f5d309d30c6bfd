(** Model of the halo exchange (backends/mpi/functional/halo_exchange.py) in machine
    arithmetic.

    As ModelHaloExchange, but the numbers that arrive in the backward pass are added
    with the addition [add] of the machine, of which nothing is known.  Elements are
    those of a ring, of which only the zero is used. *)

From Verif Require Import Prelude ModelSlicing ModelDecomposition ModelPartition Ring Tensor
  P2P Rounds ModelHaloMixin ModelRepartition ModelHaloExchange.

Section Layer.
  Variable P : part.
  Variable shape : Z -> list Z.
  Variables recv send : Z -> list (Z * Z).
  Context {R : CRing}.
  Variable add : R -> R -> R.
  Notation tensor := (tensor R).
  Notation action := (@action (@hst R) tensor).

  (** [t[sl] += m], functional/halo_exchange.py:134 and 136. *)
  Definition add_slice_by (t : tensor) (sl : list slice) (m : tensor) : tensor :=
    if zlist_eqb (tshape m) (compute_nd_slice_shape sl) then
      mkt (tshape t)
          (fun i => if in_slice sl i then add (tat t i) (tat m (map2 (fun s k => k - fst s) sl i)) else tat t i)
    else t.

  (** functional/halo_exchange.py:133-136. *)
  Definition bwd_unpack_by (sl : list slice) (m t : tensor) : tensor := add_slice_by t sl m.

  (** functional/halo_exchange.py:96-138. *)
  Definition backward_round_by (i : nat) (v : Z) : list action :=
    if takes_part P v then
      let d := halo_dim P shape recv send v i in
      exchange bwd_pack bwd_unpack_by (bwd_lrecv d) (bwd_rrecv d) (bwd_lsend d) (bwd_rsend d)
    else [].

  (** functional/halo_exchange.py:31-32 and 95-96; the forward pass only copies. *)
  Definition call_rounds_by (c : @call R) : list (@round (@hst R) tensor) :=
    let dim := length (p_shape P) in
    match c with
    | HForward x => [load_round x] ++ map (forward_round P shape recv send) (seq 0 dim) ++ [store_round]
    | HBackward dy => [load_round dy] ++ map backward_round_by (rev (seq 0 dim)) ++ [store_round]
    end.

  (** Several calls of nn/halo_exchange.py:140-151. *)
  Definition history_rounds_by (cs : list (@call R)) : list (@round (@hst R) tensor) := flat_map call_rounds_by cs.
End Layer.
