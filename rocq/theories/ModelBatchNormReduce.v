(** Model of nn/batchnorm.py with an arithmetic that is not fixed: the sums of torch,
    MPI_SUM and the operations on elements are parameters. *)

From Verif Require Import Prelude ModelSlicing ModelPartition Ring Tensor ModelCollectives ModelReduce ModelBatchNorm.

(** The operations on elements, batchnorm.py:138, 158, 180-185, 225 and 231.
    [b_over] divides by a Python integer and [b_times] multiplies by one; [b_eps]
    adds [eps]; [b_keep] and [b_take] multiply by [1 - momentum] and by [momentum];
    [b_one] is the element of torch.ones (batchnorm.py:86). *)
Record bnops (R : CRing) := mkops {
  b_add : R -> R -> R; b_sub : R -> R -> R; b_mul : R -> R -> R; b_div : R -> R -> R; b_square : R -> R; b_sqrt : R -> R;
  b_over : R -> Z -> R; b_times : Z -> R -> R; b_eps : R -> R; b_keep : R -> R; b_take : R -> R; b_one : R }.
Arguments mkops {R}. Arguments b_add {R}. Arguments b_sub {R}. Arguments b_mul {R}. Arguments b_div {R}. Arguments b_square {R}.
Arguments b_sqrt {R}. Arguments b_over {R}. Arguments b_times {R}. Arguments b_eps {R}. Arguments b_keep {R}. Arguments b_take {R}.
Arguments b_one {R}.

(** How one [_compute_mean] adds: MPI_SUM (batchnorm.py:137) and [x.sum(dim, keepdim=True)]
    of worker [v] (batchnorm.py:136). *)
Record adders (R : CRing) := mkadders { a_mpi : Z -> list Z -> list R -> list Z -> R; a_sum : Z -> nat -> tensor R -> result (tensor R) }.
Arguments mkadders {R}. Arguments a_mpi {R}. Arguments a_sum {R}.

(** One call with the sums for the mean and for the variance (batchnorm.py:188-233). *)
Record bnexec (R : CRing) := mkexec { x_call : bncall R; x_mean : adders R; x_var : adders R }.
Arguments mkexec {R}. Arguments x_call {R}. Arguments x_mean {R}. Arguments x_var {R}.

Section BatchNorm.
  Context {R : CRing}.
  Notation tensor := (tensor R).
  Variable B : bnops R.
  Variables (P : part) (num_features : Z) (cumulative affine track : bool).
  Variables (dt : Z -> Z) (rg : Z -> bool).

  (** batchnorm.py:57 and 84-89; see [bn_start]. *)
  Definition bn_start_by (v : Z) : bnstate R :=
    let s := internal_shape (length (p_shape P))
               (match index_in P v with Some idx => local_num_features P num_features idx | None => 0 end) in
    mkbn (mkt s (fun _ => rzero)) (mkt s (fun _ => b_one B)) 0.

  (** batchnorm.py:133-136; see [local_sums]. *)
  Definition local_sums_by (T : adders R) (v : Z) (t : tensor) : result tensor :=
    fold_left (fun r k => let* x := r in if Nat.eqb k 1 then Ok x else a_sum T v k x) (seq 0 (length (p_shape P))) (Ok t).

  Section Mean.
    Variable Psum : part.
    Variable volume : Z -> Z.

    (** batchnorm.py:133-137; see [channel_sums]. *)
    Definition channel_sums_by (T : adders R) (t : Z -> tensor) : Z -> result tensor :=
      sum_reduce_layer_by (a_mpi T) P Psum false false false true dt rg (fun u => value_or (local_sums_by T u (t u))).
    (** batchnorm.py:119-140; see [compute_mean]. *)
    Definition compute_mean_by (T : adders R) (t : Z -> tensor) (v : Z) : result tensor :=
      let* own := local_sums_by T v (t v) in
      let* s := channel_sums_by T t v in
      broadcast_layer Psum P false false false true dt rg
        (fun u => tmap (fun a => b_over B a (volume u)) (value_or (channel_sums_by T t u))) v.

    (** batchnorm.py:158; see [squares]. *)
    Definition squares_by (t : Z -> tensor) (mean : Z -> result tensor) (v : Z) : result tensor :=
      let* m := mean v in
      let* d := pointwise (b_sub B) (t v) m in
      Ok (tmap (b_square B) d).
    (** batchnorm.py:142-159; see [compute_var]. *)
    Definition compute_var_by (T : adders R) (t : Z -> tensor) (mean : Z -> result tensor) (v : Z) : result tensor :=
      let* own := squares_by t mean v in
      compute_mean_by T (fun u => value_or (squares_by t mean u)) v.
  End Mean.

  (** batchnorm.py:161-186; see [update_running].  [cumulative] is [not self.momentum]. *)
  Definition update_running_by (st : bnstate R) (mean var : tensor) : result (bnstate R) :=
    if cumulative then
      let n := inputs_seen st in
      let average := pointwise (fun new old => b_over B (b_add B new (b_times B n old)) (n + 1)) in
      let* m := average mean (running_mean st) in
      let* s := average var (running_var st) in
      Ok (mkbn m s (n + 1))
    else
      let average := pointwise (fun old new => b_add B (b_keep B old) (b_take B new)) in
      let* m := average (running_mean st) mean in
      let* s := average (running_var st) var in
      Ok (mkbn m s (inputs_seen st)).

  (** batchnorm.py:198-222; see [bn_statistics]. *)
  Definition bn_statistics_by (st : Z -> bnstate R) (x : bnexec R) (v : Z) : result (tensor * tensor * bnstate R) :=
    let c := x_call x in
    let* Psum := sum_partition P in
    let* gs := global_shape P (k_input c) v in
    if negb (nth 1 gs 0 =? num_features) then Raise ErrValue
    else if negb (k_training c) && track then Ok (running_mean (st v), running_var (st v), st v)
    else
      let volume u := match global_shape P (k_input c) u with Ok s => feature_volume s | Raise _ => 0 end in
      let mean := compute_mean_by Psum volume (x_mean x) (k_input c) in
      let* m := mean v in
      let* s := compute_var_by Psum volume (x_var x) (k_input c) mean v in
      if k_training c && track
      then let* st' := update_running_by (st v) m s in Ok (m, s, st')
      else Ok (m, s, st v).

  (** batchnorm.py:188-233; see [bn_forward]. *)
  Definition bn_forward_by (st : Z -> bnstate R) (x : bnexec R) (v : Z) : result (tensor * bnstate R) :=
    let c := x_call x in
    let* Psum := sum_partition P in
    let* ms := bn_statistics_by st x v in
    let '(m, s, st') := ms in
    let* d := pointwise (b_sub B) (k_input c v) m in
    let* y := pointwise (fun a b => b_div B a (b_sqrt B (b_eps B b))) d s in
    if affine then
      let* gamma := broadcast_layer Psum P false false false true dt rg (k_gamma c) v in
      let* beta := broadcast_layer Psum P false false false true dt rg (k_beta c) v in
      let* z := pointwise (b_mul B) gamma y in
      let* z := pointwise (b_add B) z beta in
      Ok (z, st')
    else Ok (y, st').

  (** A history of calls, batchnorm.py:188-233 repeatedly; see [bn_run]. *)
  Fixpoint bn_run_by (st : Z -> bnstate R) (calls : list (bnexec R)) : list (Z -> result tensor) * (Z -> bnstate R) :=
    match calls with
    | [] => ([], st)
    | c :: cs =>
        let y v := match bn_forward_by st c v with Ok (t, _) => Ok t | Raise e => Raise e end in
        let st' v := match bn_forward_by st c v with Ok (_, s) => s | Raise _ => st v end in
        let '(ys, st'') := bn_run_by st' cs in
        (y :: ys, st'')
    end.
End BatchNorm.
