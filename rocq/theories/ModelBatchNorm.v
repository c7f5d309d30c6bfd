(** Model of nn/batchnorm.py. *)

From Verif Require Import Prelude ModelSlicing ModelPartition Ring Tensor ModelCollectives.

(** The operations of the elements that a ring does not have: division, square
    root and the test for zero.  They are arbitrary functions here; where a theorem
    needs their laws it says so.  Rounding is not modelled
    (batchnorm.py:138, 184-185 and 225). *)
Record arith (R : CRing) := mkarith { adiv : R -> R -> R; asqrt : R -> R; azero : R -> bool }.
Arguments adiv {R}.
Arguments asqrt {R}.
Arguments azero {R}.

(** An integer as an element
    (the integers of batchnorm.py:138 and 184-185). *)
Definition rint {R : CRing} (n : Z) : R :=
  match n with
  | Z0 => rzero
  | Zpos p => Pos.iter (radd rone) rzero p
  | Zneg p => ropp (Pos.iter (radd rone) rzero p)
  end.

Section Torch.
  Context {R : CRing}.
  Notation tensor := (tensor R).

  (** [x.sum(dim, keepdim=True)] (batchnorm.py:136). *)
  Definition sum_dim (k : nat) (t : tensor) : result tensor :=
    if Nat.ltb k (length (tshape t))
    then Ok (mkt (upd k 1 (tshape t)) (fun i => sumf (zrange (nth k (tshape t) 0)) (fun a => tat t (upd k a i))))
    else Raise ErrTorch.

  (** Elementwise operations of torch with broadcasting; of tensors with different
      numbers of dimensions, which do not occur here, there is none. *)
  Fixpoint common_shape (a b : list Z) : option (list Z) :=
    match a, b with
    | [], [] => Some []
    | m :: a', n :: b' =>
        match common_shape a' b' with
        | Some s => if m =? n then Some (m :: s) else if m =? 1 then Some (n :: s) else if n =? 1 then Some (m :: s) else None
        | None => None
        end
    | _, _ => None
    end.
  (** The position that torch reads for index [i], batchnorm.py:158, 225 and 231. *)
  Definition stretch (shape i : list Z) : list Z := map2 (fun n k => if n =? 1 then 0 else k) shape i.
  (** An operation of batchnorm.py:158, 180-185, 225 and 231. *)
  Definition pointwise (f : R -> R -> R) (a b : tensor) : result tensor :=
    match common_shape (tshape a) (tshape b) with
    | Some s => Ok (mkt s (fun i => f (tat a (stretch (tshape a) i)) (tat b (stretch (tshape b) i))))
    | None => Raise ErrTorch
    end.
  (** [** 2], torch.sqrt and operations with numbers, batchnorm.py:138, 158 and 225. *)
  Definition tmap (f : R -> R) (t : tensor) : tensor := mkt (tshape t) (fun i => f (tat t i)).

  (** A failed worker contributes a tensor without dimensions to a collective
      (batchnorm.py:137 and 139). *)
  Definition value_or (r : result tensor) : tensor := match r with Ok t => t | Raise _ => mkt [] (fun _ => rzero) end.
End Torch.

(** batchnorm.py:59-64, [local_num_features]. *)
Definition local_num_features (P : part) (num_features : Z) (idx : list Z) : Z :=
  let shape := upd 1 num_features (p_shape P) in
  nth 1 (compute_stop_index (p_shape P) idx shape) 0 - nth 1 (compute_start_index (p_shape P) idx shape) 0.

(** batchnorm.py:66-69: [1] in every dimension but the second. *)
Definition internal_shape (dims : nat) (n : Z) : list Z := upd 1 n (repeat 1 dims).

(** batchnorm.py:71-75, [storage_workers]: ranks in P_x. *)
Definition storage_workers (P : part) : list Z :=
  map (fun c => worker_layout (p_shape P) (upd 1 c (repeat 0 (length (p_shape P))))) (zrange (nth 1 (p_shape P) 0)).

(** batchnorm.py:49-51 and 77-79: the check of the constructor and [P_sum]. *)
Definition sum_partition (P : part) : result part :=
  if Nat.ltb (length (p_shape P)) 2 then Raise ErrValue
  else create_cartesian_topology (p_root P) (incl_ranks (p_ranks P) (storage_workers P))
         (internal_shape (length (p_shape P)) (nth 1 (p_shape P) 0)).

(** The state that changes between calls: batchnorm.py:57 and 84-89. *)
Record bnstate (R : CRing) := mkbn { running_mean : tensor R; running_var : tensor R; inputs_seen : Z }.
Arguments mkbn {R}.
Arguments running_mean {R}.
Arguments running_var {R}.
Arguments inputs_seen {R}.

(** One call of the layer: its mode, its input and the affine parameters, which an
    optimiser changes between calls (batchnorm.py:188-233). *)
Record bncall (R : CRing) := mkcall { k_training : bool; k_input : Z -> tensor R; k_gamma : Z -> tensor R; k_beta : Z -> tensor R }.
Arguments mkcall {R}.
Arguments k_training {R}.
Arguments k_input {R}.
Arguments k_gamma {R}.
Arguments k_beta {R}.

Section BatchNorm.
  Context {R : CRing}.
  Notation tensor := (tensor R).
  Variable A : arith R.
  Variables (P : part) (num_features : Z) (eps : R) (momentum : option R) (affine track : bool).
  Variables (dt : Z -> Z) (rg : Z -> bool).

  (** batchnorm.py:57 and 84-89: the initial state of worker [v]. *)
  Definition bn_start (v : Z) : bnstate R :=
    let s := internal_shape (length (p_shape P))
               (match index_in P v with Some idx => local_num_features P num_features idx | None => 0 end) in
    mkbn (mkt s (fun _ => rzero)) (mkt s (fun _ => rone)) 0.

  (** batchnorm.py:133-136: the sums over all dimensions but the second. *)
  Definition local_sums (t : tensor) : result tensor :=
    fold_left (fun r k => let* x := r in if Nat.eqb k 1 then Ok x else sum_dim k x) (seq 0 (length (p_shape P))) (Ok t).

  Section Mean.
    Variable Psum : part.
    Variable volume : Z -> Z.

    (** batchnorm.py:119-140 [_compute_mean]. *)
    Definition channel_sums (t : Z -> tensor) : Z -> result tensor :=
      sum_reduce_layer P Psum false false false true dt rg (fun u => value_or (local_sums (t u))).
    (** batchnorm.py:119-140. *)
    Definition compute_mean (t : Z -> tensor) (v : Z) : result tensor :=
      let* own := local_sums (t v) in
      let* s := channel_sums t v in
      broadcast_layer Psum P false false false true dt rg
        (fun u => tmap (fun a => adiv A a (rint (volume u))) (value_or (channel_sums t u))) v.

    (** batchnorm.py:142-159 [_compute_var]. *)
    Definition squares (t : Z -> tensor) (mean : Z -> result tensor) (v : Z) : result tensor :=
      let* m := mean v in
      let* d := pointwise rsub (t v) m in
      Ok (tmap (fun a => rmul a a) d).
    (** batchnorm.py:142-159. *)
    Definition compute_var (t : Z -> tensor) (mean : Z -> result tensor) (v : Z) : result tensor :=
      let* own := squares t mean v in
      compute_mean (fun u => value_or (squares t mean u)) v.
  End Mean.

  (** batchnorm.py:161-186 [_update_running_stats]. *)
  Definition update_running (st : bnstate R) (mean var : tensor) : result (bnstate R) :=
    let cumulative :=
      let n := inputs_seen st in
      let average := pointwise (fun new old => adiv A (radd new (rmul (rint n) old)) (rint (n + 1))) in
      let* m := average mean (running_mean st) in
      let* s := average var (running_var st) in
      Ok (mkbn m s (n + 1)) in
    match momentum with
    | None => cumulative
    | Some a =>
        if azero A a then cumulative
        else
          let average := pointwise (fun old new => radd (rmul (rsub rone a) old) (rmul a new)) in
          let* m := average (running_mean st) mean in
          let* s := average (running_var st) var in
          Ok (mkbn m s (inputs_seen st))
    end.

  (** batchnorm.py:103-117 and 204-207: the volume of a feature from the global shape. *)
  Definition global_shape (x : Z -> tensor) (v : Z) : result (list Z) := assemble_global_shape P (fun u => tshape (x u)) v.
  (** batchnorm.py:205-207. *)
  Definition feature_volume (shape : list Z) : Z := fold_left Z.mul (skipn 2 shape) (nth 0 shape 0).

  (** batchnorm.py:198-222: the mean and variance that worker [v] uses, and its state
      afterwards. *)
  Definition bn_statistics (st : Z -> bnstate R) (c : bncall R) (v : Z) : result (tensor * tensor * bnstate R) :=
    let* Psum := sum_partition P in
    let* gs := global_shape (k_input c) v in
    if negb (nth 1 gs 0 =? num_features) then Raise ErrValue
    else if negb (k_training c) && track then Ok (running_mean (st v), running_var (st v), st v)
    else
      let volume u := match global_shape (k_input c) u with Ok s => feature_volume s | Raise _ => 0 end in
      let mean := compute_mean Psum volume (k_input c) in
      let* m := mean v in
      let* s := compute_var Psum volume (k_input c) mean v in
      if k_training c && track
      then let* st' := update_running (st v) m s in Ok (m, s, st')
      else Ok (m, s, st v).

  (** batchnorm.py:188-233 [forward] of worker [v]: its output and state. *)
  Definition bn_forward (st : Z -> bnstate R) (c : bncall R) (v : Z) : result (tensor * bnstate R) :=
    let* Psum := sum_partition P in
    let* ms := bn_statistics st c v in
    let '(m, s, st') := ms in
    let* d := pointwise rsub (k_input c v) m in
    let* y := pointwise (fun a b => adiv A a (asqrt A (radd b eps))) d s in
    if affine then
      let* gamma := broadcast_layer Psum P false false false true dt rg (k_gamma c) v in
      let* beta := broadcast_layer Psum P false false false true dt rg (k_beta c) v in
      let* z := pointwise rmul gamma y in
      let* z := pointwise radd z beta in
      Ok (z, st')
    else Ok (y, st').

  (** A history of calls: the outputs of all workers, and the final states
      (batchnorm.py:188-233, repeatedly). *)
  Fixpoint bn_run (st : Z -> bnstate R) (calls : list (bncall R)) : list (Z -> result tensor) * (Z -> bnstate R) :=
    match calls with
    | [] => ([], st)
    | c :: cs =>
        let y v := match bn_forward st c v with Ok (t, _) => Ok t | Raise e => Raise e end in
        let st' v := match bn_forward st c v with Ok (_, s) => s | Raise _ => st v end in
        let '(ys, st'') := bn_run st' cs in
        (y :: ys, st'')
    end.
End BatchNorm.
