(** Specification vocabulary for floating-point arithmetic: the IEEE 754 binary
    formats, their operations, and bounds of the rounding error of a sum. *)

From Coq Require Import Reals.
From Flocq Require Import Core Binary Bits BinarySingleNaN.
From Verif Require Import Prelude SpecIndex ModelSlicing Ring Tensor ModelTorch SpecSum.

Delimit Scope R_scope with real.

(** A format with [f_mantissa] stored bits of the significand and [f_exponent] bits of
    the exponent; utilities/dtype.py:38-40 has (10, 5), (23, 8) and (52, 11). *)
Record format := mkformat {
  f_mantissa : Z; f_exponent : Z; f_mantissa_ok : 0 < f_mantissa; f_exponent_ok : 0 < f_exponent;
  f_range_ok : f_mantissa + 1 < 2 ^ (f_exponent - 1) }.

Definition f_width (F : format) : nat := Z.to_nat (f_mantissa F + f_exponent F + 1).
Definition f_prec (F : format) : Z := f_mantissa F + 1.
Definition f_max (F : format) : Z := 2 ^ (f_exponent F - 1).
Definition words (F : format) : CRing := word_ring (f_width F).

(** The number that a word stands for (all NaNs are one). *)
Definition decode (F : format) (a : words F) : BinarySingleNaN.binary_float (f_prec F) (f_max F) :=
  B2BSN (f_prec F) (f_max F)
    (binary_float_of_bits (f_mantissa F) (f_exponent F) (f_mantissa_ok F) (f_exponent_ok F) (f_range_ok F) (@bits (f_width F) a)).
Definition finite (F : format) (a : words F) : Prop := BinarySingleNaN.is_finite (decode F a) = true.
Definition number (F : format) (a : words F) : R := BinarySingleNaN.B2R (decode F a).

Lemma f_prec_pos F : Prec_gt_0 (f_prec F).
Proof. unfold Prec_gt_0, f_prec. pose proof (f_mantissa_ok F). lia. Qed.
Lemma f_prec_max F : Prec_lt_emax (f_prec F) (f_max F).
Proof. exact (f_range_ok F). Qed.

(** The machine's operations are those of IEEE 754, rounding to nearest even. *)
Definition ieee (F : format) (M : machine (words F)) : Prop :=
  let add := @BinarySingleNaN.Bplus (f_prec F) (f_max F) (f_prec_pos F) (f_prec_max F) mode_NE in
  let mul := @BinarySingleNaN.Bmult (f_prec F) (f_max F) (f_prec_pos F) (f_prec_max F) mode_NE in
  let fma := @BinarySingleNaN.Bfma (f_prec F) (f_max F) (f_prec_pos F) (f_prec_max F) mode_NE in
  (forall a b, decode F (m_add M a b) = add (decode F a) (decode F b)) /\
  (forall a b, decode F (m_mul M a b) = mul (decode F a) (decode F b)) /\
  (forall a b c, decode F (m_fma M a b c) = fma (decode F a) (decode F b) (decode F c)).

(** ** Sums *)
Section Sums.
  Variable F : format.
  Definition finite_term (t : term (words F)) : Prop := match t with Num a => finite F a | Prod a b => finite F a /\ finite F b end.
  Definition term_number (t : term (words F)) : R := match t with Num a => number F a | Prod a b => number F a * number F b end%real.
  Definition sum_number (l : list (term (words F))) : R := fold_right (fun t s => term_number t + s)%real 0%real l.
  Definition sum_abs (l : list (term (words F))) : R := fold_right (fun t s => Rabs (term_number t) + s)%real 0%real l.

  (** Half a unit in the last place of 1, and half the smallest positive number. *)
  Definition unit_error : R := bpow radix2 (- f_prec F).
  Definition tiny_error : R := bpow radix2 (2 - f_max F - f_prec F).
  Definition growth (l : list (term (words F))) : R := ((1 + unit_error) ^ length l)%real.
  Definition sum_error (l : list (term (words F))) : R :=
    ((growth l - 1) * sum_abs l + growth l * (INR (length l) * tiny_error))%real.

  (** [r] is as near to the sum of [l] as the number of terms permits; it is a number
      if the terms are small enough. *)
  Definition approximates (l : list (term (words F))) (r : words F) : Prop :=
    (finite F r -> Forall finite_term l /\ (Rabs (number F r - sum_number l) <= sum_error l)%real) /\
    (Forall finite_term l -> (sum_abs l + sum_error l < bpow radix2 (f_max F))%real -> finite F r).
End Sums.

(** ** Linear layers and their gradients, up to rounding *)
Section Linear.
  Variable F : format.
  Notation tensor := (tensor (words F)).
  Definition linear_near (lead : list Z) (n_in n_out : Z) (X W : tensor) (b : option tensor) (Y : tensor) : Prop :=
    tshape Y = lead ++ [n_out] /\
    forall l o, valid_index lead l -> 0 <= o < n_out -> approximates F (linear_terms n_in X W b l o) (tat Y (l ++ [o])).
  Definition input_gradient_near (lead : list Z) (n_in n_out : Z) (W dY dX : tensor) : Prop :=
    tshape dX = lead ++ [n_in] /\
    forall l f, valid_index lead l -> 0 <= f < n_in ->
      approximates F (map (fun o => Prod (tat dY (l ++ [o])) (tat W [o; f])) (zrange n_out)) (tat dX (l ++ [f])).
  Definition weight_gradient_near (lead : list Z) (n_in n_out : Z) (X dY dW : tensor) : Prop :=
    tshape dW = [n_out; n_in] /\
    forall o f, 0 <= o < n_out -> 0 <= f < n_in ->
      approximates F (map (fun l => Prod (tat dY (l ++ [o])) (tat X (l ++ [f]))) (indices lead)) (tat dW [o; f]).
  Definition bias_gradient_near (lead : list Z) (n_out : Z) (dY db : tensor) : Prop :=
    tshape db = [n_out] /\
    forall o, 0 <= o < n_out -> approximates F (map (fun l => Num (tat dY (l ++ [o]))) (indices lead)) (tat db [o]).
End Linear.
