(** Specification of sequential interpolation along one dimension, in exact
    arithmetic: which elements an output is computed from, and their weights. *)

From Coq Require Import QArith Qcanon Qround.
From Verif Require Import Prelude.
Local Open Scope Z_scope.

Definition of_Z (z : Z) : Qc := Q2Qc (inject_Z z).
Definition floor_of (q : Qc) : Z := Qfloor (this q).

(** Interpolation from [nx] to [ny] points. *)
Inductive method :=
| Constant                        (* the nearest element to the left *)
| Aligned                         (* linear; the first and last points coincide *)
| Centred (scale : option Qc).    (* linear; the points are centres of [nx] and [ny] cells
                                     of the same interval, or of cells whose widths have
                                     the ratio [scale] *)

(** Where output [y] lies, in units of inputs. *)
Definition position (m : method) (nx ny y : Z) : Qc :=
  match m with
  | Constant => of_Z y * (of_Z nx / of_Z ny)
  | Aligned => of_Z y * (of_Z (nx - 1) / of_Z (ny - 1))
  | Centred None => (of_Z y + Q2Qc (1 # 2)) * (of_Z nx / of_Z ny) - Q2Qc (1 # 2)
  | Centred (Some s) => (of_Z y + Q2Qc (1 # 2)) / s - Q2Qc (1 # 2)
  end%Qc.

(** Positions left of the first element count as this element. *)
Definition source (m : method) (nx ny y : Z) : Qc :=
  let p := position m nx ny y in if Qclt_le_dec p 0 then 0%Qc else p.

(** Weights within 1e-4 of 0 or 1 are rounded. *)
Definition rounded (t : Qc) : Qc :=
  if Qclt_le_dec t (Q2Qc (1 # 10000)) then 0%Qc
  else if Qclt_le_dec (Q2Qc (9999 # 10000)) t then 1%Qc else t.

(** The elements that output [y] is a sum of: index and weight. *)
Definition reads (m : method) (nx ny y : Z) : list (Z * Qc) :=
  let p := source m nx ny y in
  let i := floor_of p in
  match m with
  | Constant => [(i, 1%Qc)]
  | _ => let t := rounded (p - of_Z i)%Qc in [(i, (1 - t)%Qc); (Z.min (nx - 1) (i + 1), t)]
  end.

(** The method makes sense for these extents. *)
Definition sensible (m : method) (nx ny : Z) : Prop :=
  0 < nx /\ 0 < ny /\
  match m with
  | Constant => True
  | Aligned => 1 < ny
  | Centred None => True
  | Centred (Some s) => (0 < s)%Qc /\ (of_Z ny <= s * of_Z nx)%Qc
  end.
