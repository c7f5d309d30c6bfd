(** Model of the backward pass of nn/batchnorm.py: what torch's engine computes from
    the forward pass, batchnorm.py:119-159 and 188-233, and the backward passes of
    the broadcasts and sum-reductions in it. *)

From Verif Require Import Prelude ModelSlicing ModelPartition Ring Tensor ModelCollectives ModelBatchNorm.

Section Torch.
  Context {R : CRing}.
  Notation tensor := (tensor R).

  (** The gradient of an operand of extents [shape] that an elementwise operation
      stretched: the sums of the entries that each of its entries was used for
      (the operations of batchnorm.py:158, 225 and 231). *)
  Definition unstretch (shape : list Z) (g : tensor) : tensor :=
    mkt shape (fun i => sumf (filter (fun j => zlist_eqb (stretch shape j) i) (indices (tshape g))) (tat g)).

  (** The gradient of sums with [keepdim=True]: the gradient of the sums stretched to
      the extents of what was summed (batchnorm.py:136). *)
  Definition expand (shape : list Z) (g : tensor) : tensor := mkt shape (fun i => tat g (stretch (tshape g) i)).

  (** The exponent of batchnorm.py:158. *)
  Definition two : R := radd rone rone.
End Torch.

Section Backward.
  Context {R : CRing}.
  Notation tensor := (tensor R).
  Variable A : arith R.
  Variables (P : part) (num_features : Z) (eps : R) (momentum : option R) (affine track : bool).
  Variables (dt : Z -> Z) (rg : Z -> bool).
  Variables (st : Z -> bnstate R) (c : bncall R).
  (** The gradients of the outputs. *)
  Variable dy : Z -> tensor.

  (** batchnorm.py:204-207. *)
  Definition bn_volume (u : Z) : Z := match global_shape P (k_input c) u with Ok s => feature_volume s | Raise _ => 0 end.

  (** batchnorm.py:209-225: what the forward pass of worker [v] keeps: the mean and
      variance it uses, the input minus the mean, and the normalised input. *)
  Definition bn_mean (v : Z) : result tensor :=
    let* ms := bn_statistics A P num_features momentum track dt rg st c v in Ok (fst (fst ms)).
  (** batchnorm.py:212, 219 or 222. *)
  Definition bn_var (v : Z) : result tensor :=
    let* ms := bn_statistics A P num_features momentum track dt rg st c v in Ok (snd (fst ms)).
  (** batchnorm.py:225, the denominator. *)
  Definition bn_root (v : Z) : result tensor := let* s := bn_var v in Ok (tmap (fun b => asqrt A (radd b eps)) s).
  (** batchnorm.py:158 and 225, [input - mean]. *)
  Definition bn_centred (v : Z) : result tensor := let* m := bn_mean v in pointwise rsub (k_input c v) m.
  (** batchnorm.py:225. *)
  Definition bn_normal (v : Z) : result tensor :=
    let* x := bn_centred v in
    let* r := bn_root v in
    pointwise (adiv A) x r.

  Section Sums.
    Variable Psum : part.

    (** batchnorm.py:133-140 [_compute_mean] backward, for the tensors [t] and the
        gradients [g] of the mean on the workers: [bc], the division, [sr] and the sums. *)
    Definition channel_sums_grad (t g : Z -> tensor) : Z -> result tensor :=
      broadcast_layer_backward Psum P false false false true dt rg
        (fun u => tmap (fun a => adiv A a (rint (bn_volume u))) (value_or (channel_sums P dt rg Psum t u))) g.
    (** batchnorm.py:119-140 backwards. *)
    Definition mean_backward (t g : Z -> tensor) (v : Z) : result tensor :=
      let* own := channel_sums_grad t g v in
      let* s := sum_reduce_layer_backward P Psum false false false true dt rg (fun u => value_or (local_sums P (t u)))
        (fun u => tmap (fun a => adiv A a (rint (bn_volume u))) (value_or (channel_sums_grad t g u))) v in
      Ok (expand (tshape (t v)) s).

    (** batchnorm.py:231: the gradient of [x] in [gamma * x + beta]. *)
    Definition normal_grad (v : Z) : result tensor :=
      if affine then
        let* gamma := broadcast_layer Psum P false false false true dt rg (k_gamma c) v in
        pointwise rmul (dy v) gamma
      else Ok (dy v).

    (** batchnorm.py:225: the gradients of [input - mean] and of [var] in
        [(input - mean) / torch.sqrt(var + self.eps)]. *)
    Definition numerator_grad (v : Z) : result tensor :=
      let* g := normal_grad v in
      let* r := bn_root v in
      pointwise (adiv A) g r.
    (** batchnorm.py:225 backwards, the gradient of [var]. *)
    Definition var_grad (v : Z) : result tensor :=
      let* g := normal_grad v in
      let* y := bn_normal v in
      let* r := bn_root v in
      let* q := pointwise (adiv A) y r in
      let* h := pointwise (fun a b => rmul (ropp a) b) g q in
      pointwise (fun a b => adiv A a (rmul two b)) (unstretch (tshape r) h) r.

    (** batchnorm.py:158: the gradient of [input - mean] in [(input - mean) ** 2], from
        that of the variance. *)
    Definition squares_grad (v : Z) : result tensor :=
      let* own := var_grad v in
      let* g := mean_backward (fun u => value_or (squares (k_input c) bn_mean u)) (fun u => value_or (var_grad u)) v in
      let* x := bn_centred v in
      pointwise (fun a b => rmul a (rmul two b)) g x.

    (** batchnorm.py:158 and 225: the gradient of [mean], which is used in both. *)
    Definition mean_grad (v : Z) : result tensor :=
      let* m := bn_mean v in
      let* a := numerator_grad v in
      let* b := squares_grad v in
      pointwise radd (tmap ropp (unstretch (tshape m) a)) (tmap ropp (unstretch (tshape m) b)).

    (** batchnorm.py:209-225: the gradient of [input].  In evaluation with tracking the
        statistics are constants, lines 217-219. *)
    Definition input_grad (v : Z) : result tensor :=
      let* a := numerator_grad v in
      if negb (k_training c) && track then Ok a
      else
        let* b := squares_grad v in
        let* own := mean_grad v in
        let* e := mean_backward (k_input c) (fun u => value_or (mean_grad u)) v in
        let* ab := pointwise radd a b in
        pointwise radd ab e.

    (** batchnorm.py:229-231: the gradients of the copies of gamma and beta on worker [v]. *)
    Definition gamma_copy_grad (v : Z) : result tensor :=
      let* gamma := broadcast_layer Psum P false false false true dt rg (k_gamma c) v in
      let* y := bn_normal v in
      let* h := pointwise rmul (dy v) y in
      Ok (unstretch (tshape gamma) h).
    (** batchnorm.py:230-231 backwards. *)
    Definition beta_copy_grad (v : Z) : result tensor :=
      let* beta := broadcast_layer Psum P false false false true dt rg (k_beta c) v in
      Ok (unstretch (tshape beta) (dy v)).
  End Sums.

  (** The gradients that worker [v] has after the backward pass: of its input and of
      its gamma and beta (batchnorm.py:188-233 backwards). *)
  Definition bn_input_gradient (v : Z) : result tensor :=
    let* Psum := sum_partition P in
    input_grad Psum v.
  (** batchnorm.py:229 backwards. *)
  Definition bn_gamma_gradient (v : Z) : result tensor :=
    let* Psum := sum_partition P in
    let* own := gamma_copy_grad Psum v in
    broadcast_layer_backward Psum P false false false true dt rg (k_gamma c) (fun u => value_or (gamma_copy_grad Psum u)) v.
  (** batchnorm.py:230 backwards. *)
  Definition bn_beta_gradient (v : Z) : result tensor :=
    let* Psum := sum_partition P in
    let* own := beta_copy_grad Psum v in
    broadcast_layer_backward Psum P false false false true dt rg (k_beta c) (fun u => value_or (beta_copy_grad Psum u)) v.
End Backward.
