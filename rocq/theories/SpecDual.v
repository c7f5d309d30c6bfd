(** Derivatives as calculations with dual numbers: [(a, a')] stands for a value and
    its rate of change in some direction. *)

From Verif Require Import Prelude Ring Tensor ModelBatchNorm.

Section Dual.
  Variable R : CRing.
  Add Ring R_ring : (rth R).

  Definition dual_add (a b : R * R) : R * R := (radd (fst a) (fst b), radd (snd a) (snd b)).
  Definition dual_sub (a b : R * R) : R * R := (rsub (fst a) (fst b), rsub (snd a) (snd b)).
  Definition dual_opp (a : R * R) : R * R := (ropp (fst a), ropp (snd a)).
  (** The product rule. *)
  Definition dual_mul (a b : R * R) : R * R := (rmul (fst a) (fst b), radd (rmul (snd a) (fst b)) (rmul (fst a) (snd b))).
  Lemma dual_theory : ring_theory ((rzero, rzero) : R * R) (rone, rzero) dual_add dual_mul dual_sub dual_opp eq.
  Proof.
    constructor; repeat (intros [? ?]); unfold dual_add, dual_mul, dual_sub, dual_opp; cbn [fst snd]; f_equal; ring.
  Qed.
  Definition Dual : CRing := mkCRing (R * R) (rzero, rzero) (rone, rzero) dual_add dual_mul dual_sub dual_opp dual_theory.

  (** The quotient rule, [(a / b)' = (a' - (a / b) b') / b], and the derivative of the
      square root, [b' / (2 sqrt b)]. *)
  Definition dual_div (A : arith R) (a b : R * R) : R * R :=
    (adiv A (fst a) (fst b), adiv A (rsub (snd a) (rmul (adiv A (fst a) (fst b)) (snd b))) (fst b)).
  Definition dual_sqrt (A : arith R) (b : R * R) : R * R :=
    (asqrt A (fst b), adiv A (snd b) (rmul (radd rone rone) (asqrt A (fst b)))).
  Definition dual_arith (A : arith R) : arith Dual := mkarith Dual (dual_div A) (dual_sqrt A) (fun a => azero A (fst a)).

  (** Values with their rates of change, and the rates of change of results. *)
  Definition moving (G G' : tensor R) : tensor Dual := mkt (R := Dual) (tshape G) (fun i => (tat G i, tat G' i)).
  Definition fixed (a : R) : Dual := (a, rzero).
  Definition rate (Y : tensor Dual) : tensor R := mkt (tshape Y) (fun i => snd (tat Y i)).
  Definition present (Y : tensor Dual) : tensor R := mkt (tshape Y) (fun i => fst (tat Y i)).
End Dual.
Arguments moving {R}.
Arguments fixed {R}.
Arguments rate {R}.
Arguments present {R}.
Arguments dual_arith {R}.
