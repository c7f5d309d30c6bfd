(** Model of saving and restoring a batch normalisation layer: what of its state
    (nn/batchnorm.py) [torch.nn.Module.state_dict] contains. *)

From Verif Require Import Prelude SpecIndex ModelSlicing ModelPartition Ring Tensor ModelCollectives ModelBatchNorm.

Section Checkpoint.
  Context {R : CRing}.

  (** [state_dict] on one worker: the buffers registered at batchnorm.py:84-86, whose
      values lines 180-185 replace, none at lines 87-89; [inputs_seen] (lines 57 and
      186) is an attribute that no state_dict contains.  The affine parameters (lines
      95-101) belong to the calls, see [bncall]. *)
  Definition bn_save (track : bool) (st : bnstate R) : option (tensor R * tensor R) :=
    if track then Some (running_mean st, running_var st) else None.

  (** [load_state_dict] into a layer in state [st] (batchnorm.py:84-89): torch raises if a key is
      missing or unexpected, or if a shape differs. *)
  Definition bn_load (track : bool) (st : bnstate R) (saved : option (tensor R * tensor R)) : result (bnstate R) :=
    match track, saved with
    | false, None => Ok st
    | true, Some (m, s) =>
        if list_eq_dec Z.eq_dec (tshape m) (tshape (running_mean st))
        then if list_eq_dec Z.eq_dec (tshape s) (tshape (running_var st))
             then Ok (mkbn m s (inputs_seen st)) else Raise ErrTorch
        else Raise ErrTorch
    | _, _ => Raise ErrTorch
    end.
End Checkpoint.
