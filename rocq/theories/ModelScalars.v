(** Instances of the arithmetic of the interpolation: exact rational numbers, and
    binary floating point numbers as rational numbers that are rounded after
    every operation.

    Simplified: exponents are unbounded, there are no infinities and no NaN, a
    division by zero gives zero.  (The numbers involved are extents, indices and
    their quotients, far from overflow.) *)

From Coq Require Import QArith Qcanon Qround Qabs.
From Verif Require Import Prelude Ring ModelInterpolate.

Definition Qint (z : Z) : Qc := Q2Qc (inject_Z z).
Definition Qhalf : Qc := Q2Qc (1 # 2).
Definition Qcfloor (a : Qc) : Z := Qfloor (this a).
Definition Qcnegative (a : Qc) : bool := negb (Qle_bool 0 (this a)).
(** interpolate.h:128-129: the literal 1e-4. *)
Definition Qctiny (a : Qc) : bool := negb (Qle_bool (1 # 10000) (Qabs (this a))).

(** Exact arithmetic
    (interpolate.h:74-136 and interpolate_mixin.py:56-158 without rounding). *)
Definition exact : scalars :=
  mkscalars Qc Qint Qcdiv Qcmult Qcminus (fun i => (Qint i + Qhalf)%Qc) Qcdiv Qcmult Qcminus
            (fun a => a) Qcfloor Qcnegative Qctiny.

(** Division of integers, rounded to nearest, ties to even
    (IEEE 754, the arithmetic of numpy and C++). *)
Definition div_nearest (n d : Z) : Z :=
  let q := n / d in
  match 2 * (n mod d) ?= d with
  | Lt => q
  | Gt => q + 1
  | Eq => if Z.even q then q else q + 1
  end.

(** IEEE 754 rounding of a rational number to [p] significant bits: the exponent
    [e] with 2^e <= |a| < 2^(e+1), then the nearest multiple of 2^(e+1-p)
    (the arithmetic of numpy and C++). *)
Definition round_bits (p : Z) (a : Qc) : Qc :=
  let n := Z.abs (Qnum (this a)) in
  let d := Z.pos (Qden (this a)) in
  if n =? 0 then Qint 0 else
  let e0 := Z.log2 n - Z.log2 d in
  let below := if 0 <=? e0 then n <? d * 2 ^ e0 else n * 2 ^ (- e0) <? d in
  let e := if below then e0 - 1 else e0 in
  let k := p - 1 - e in      (* |a| * 2^k has p bits before the point *)
  let m := if 0 <=? k then div_nearest (n * 2 ^ k) d else div_nearest n (d * 2 ^ (- k)) in
  let m := Z.sgn (Qnum (this a)) * m in
  if 0 <=? k then Q2Qc (m # Z.to_pos (2 ^ k)) else Qint (m * 2 ^ (- k)).

(** An operation with rounding, as in numpy and C++. *)
Definition binary (p : Z) (f : Qc -> Qc -> Qc) (a b : Qc) : Qc := round_bits p (f a b).

(** interpolate.h with [scalar_t] = float: floats have 24 bits, doubles 53. *)
Definition kernel_float : scalars :=
  mkscalars Qc (fun i => round_bits 24 (Qint i)) (binary 24 Qcdiv) (binary 24 Qcmult) (binary 24 Qcminus)
            (fun i => round_bits 53 (Qint i + Qhalf)%Qc) (binary 53 Qcdiv) (binary 53 Qcmult) (binary 53 Qcminus)
            (round_bits 24) Qcfloor Qcnegative Qctiny.

(** interpolate.h with [scalar_t] = double; floorf takes a float
    (interpolate.h:74-136). *)
Definition kernel_double : scalars :=
  mkscalars Qc (fun i => round_bits 53 (Qint i)) (binary 53 Qcdiv) (binary 53 Qcmult) (binary 53 Qcminus)
            (fun i => round_bits 53 (Qint i + Qhalf)%Qc) (binary 53 Qcdiv) (binary 53 Qcmult) (binary 53 Qcminus)
            (fun a => a) (fun a => Qcfloor (round_bits 24 a)) Qcnegative Qctiny.

(** The torch tensors of nn/mixins/interpolate_mixin.py: float64, except for the
    sum of a tensor of integers and 0.5, which is float32. *)
Definition python_scalars : scalars :=
  mkscalars Qc (fun i => round_bits 53 (Qint i)) (binary 53 Qcdiv) (binary 53 Qcmult) (binary 53 Qcminus)
            (fun i => round_bits 24 (Qint i + Qhalf)%Qc) (binary 53 Qcdiv) (binary 53 Qcmult) (binary 53 Qcminus)
            (fun a => a) Qcfloor Qcnegative Qctiny.
