(** torch.nn.BatchNorm on an undistributed tensor of dimensions batch, channel,
    features. *)

From Verif Require Import Prelude SpecIndex Ring Tensor ModelBatchNorm.

(** The entries of channel [c], and how many there are. *)
Definition channel_entries (shape : list Z) (c : Z) : list (list Z) :=
  filter (fun i => nth 1 i 0 =? c) (indices shape).
Definition channel_volume (shape : list Z) : Z := nth 0 shape 0 * zprod (skipn 2 shape).

Section Sequential.
  Context {R : CRing}.
  Variable A : arith R.

  Definition channel_mean (G : tensor R) (c : Z) : R :=
    adiv A (sumf (channel_entries (tshape G) c) (tat G)) (rint (channel_volume (tshape G))).
  Definition channel_var (G : tensor R) (c : Z) : R :=
    adiv A (sumf (channel_entries (tshape G) c) (fun i => rmul (rsub (tat G i) (channel_mean G c)) (rsub (tat G i) (channel_mean G c))))
           (rint (channel_volume (tshape G))).

  (** Per channel the running mean and variance, and the number of batches seen. *)
  Record running := mkrun { q_mean : Z -> R; q_var : Z -> R; q_seen : Z }.
  Definition fresh : running := mkrun (fun _ => rzero) (fun _ => rone) 0.

  Variables (eps : R) (momentum : option R) (affine track : bool).

  (** What is averaged into the running variance: a function of the volume and of
      the variance of the batch. *)
  Variable averaged : Z -> R -> R.

  Definition factor (q : running) : R :=
    match momentum with Some a => a | None => adiv A rone (rint (q_seen q + 1)) end.
  Definition average (f old new : R) : R := radd (rmul (rsub rone f) old) (rmul f new).

  (** The mean and variance used for [G], and the statistics afterwards. *)
  Definition uses (training : bool) (q : running) (G : tensor R) : (Z -> R) * (Z -> R) :=
    if negb training && track then (q_mean q, q_var q) else (channel_mean G, channel_var G).
  Definition after (training : bool) (q : running) (G : tensor R) : running :=
    if training && track
    then mkrun (fun c => average (factor q) (q_mean q c) (channel_mean G c))
               (fun c => average (factor q) (q_var q c) (averaged (channel_volume (tshape G)) (channel_var G c)))
               (q_seen q + 1)
    else q.

  Definition normalised (training : bool) (gamma beta : Z -> R) (q : running) (G : tensor R) : tensor R :=
    let '(m, s) := uses training q G in
    mkt (tshape G) (fun i =>
      let c := nth 1 i 0 in
      let y := adiv A (rsub (tat G i) (m c)) (asqrt A (radd (s c) eps)) in
      if affine then radd (rmul (gamma c) y) (beta c) else y).
End Sequential.
Arguments running : clear implicits.
Arguments mkrun {R}.

(** The values that the workers at channel position [c] hold of a function of the
    channels, when channels are cut into [e]. *)
Definition channels {R : CRing} (d : nat) (e : list Z) (c : Z) (f : Z -> R) : tensor R :=
  mkt (1 :: nth (Z.to_nat c) e 0 :: repeat 1 d) (fun i => f (zsum (firstn (Z.to_nat c) e) + nth 1 i 0)).

(** One call on undistributed data: the mode, the input, the affine parameters and
    the layout in which the workers hold the input. *)
Record step (R : CRing) := mkstep { s_training : bool; s_input : tensor R; s_gamma : Z -> R; s_beta : Z -> R; s_layout : list (list Z) }.
Arguments mkstep {R}.
Arguments s_training {R}.
Arguments s_input {R}.
Arguments s_gamma {R}.
Arguments s_beta {R}.
Arguments s_layout {R}.

Section Histories.
  Context {R : CRing}.
  Variable A : arith R.
  Variables (eps : R) (momentum : option R) (affine track : bool) (averaged : Z -> R -> R).

  (** The outputs and the final statistics of the sequential layer. *)
  Fixpoint sequential (q : running R) (l : list (step R)) : list (tensor R) * running R :=
    match l with
    | [] => ([], q)
    | s :: l' =>
        let y := normalised A eps affine track (s_training s) (s_gamma s) (s_beta s) q (s_input s) in
        let '(ys, q') := sequential (after A momentum track averaged (s_training s) q (s_input s)) l' in
        (y :: ys, q')
    end.
End Histories.
