(** Model of [MPIPartition.allgather_data] and [MPIPartition.allreduce_data]
    (partition.py:838-907). *)

From Coq Require Import String.
From Verif Require Import Prelude Ring Tensor.
Import ListNotations.
Local Open Scope list_scope.
Local Open Scope Z_scope.

(** [data.dtype.kind] of numpy. *)
Inductive kind := KInt | KUnsigned | KFloat | KBool | KComplex | KOther.

(** How a call ends on a worker.  [Stuck] is the failure of a collective call:
    participants missing, or buffers that do not fit. *)
Inductive outcome (A : Type) : Type :=
| Returned (a : A)
| ValueError                     (* partition.py:903 *)
| UnboundLocalError              (* [dtype_info] at partition.py:899 and 901 *)
| Stuck.
Arguments Returned {A} a.
Arguments ValueError {A}.
Arguments UnboundLocalError {A}.
Arguments Stuck {A}.

(** partition.py:888-891: is [dtype_info] assigned? *)
Definition has_info (k : kind) : bool :=
  match k with KInt | KUnsigned | KFloat => true | _ => false end.

(** partition.py:893-903: what happens before the collective call; the operation
    is [operation_map[op]] of backends/mpi/__init__.py:22-27.  The contents of
    [output] do not matter, [Allreduce] overwrites them. *)
Definition select_operation (k : kind) (op : string) : outcome (Z -> Z -> Z) :=
  if String.eqb op "sum" then Returned Z.add
  else if String.eqb op "prod" then Returned Z.mul
  else if String.eqb op "max" then (if has_info k then Returned Z.max else UnboundLocalError)
  else if String.eqb op "min" then (if has_info k then Returned Z.min else UnboundLocalError)
  else ValueError.

(** MPI_Allreduce: the members' values, combined in rank order. *)
Definition combine_all (f : Z -> Z -> Z) (l : list Z) : Z := fold_left f (tl l) (hd 0 l).

(** partition.py:866-907 on worker [v] of a partition with workers [ranks];
    [kinds], [ops] and [data] are the arguments of the workers.  The elements are
    integers. *)
Definition allreduce_data (ranks : list Z) (kinds : Z -> kind) (ops : Z -> string) (data : Z -> tensor Zring) (v : Z)
  : outcome (tensor Zring) :=
  match select_operation (kinds v) (ops v) with
  | ValueError => ValueError
  | UnboundLocalError => UnboundLocalError
  | Stuck => Stuck
  | Returned f =>
      (* line 905: all members call Allreduce with this operation and this many elements *)
      if forallb (fun u => match select_operation (kinds u) (ops u) with
                           | Returned _ => String.eqb (ops u) (ops v) && (zprod (tshape (data u)) =? zprod (tshape (data v)))
                           | _ => false
                           end) ranks
      then Returned (@mkt Zring (tshape (data v)) (fun i => combine_all f (map (fun u => tat (data u) i) ranks)))
      else Stuck
  end.

(** [np.atleast_1d] (partition.py:857). *)
Definition atleast_1d (t : tensor Zring) : tensor Zring :=
  match tshape t with [] => @mkt Zring [1] (fun _ => tat t []) | _ => t end.

(** partition.py:838-864 on worker [v].  Every member sends its elements and
    expects [len(data)] elements of each member; the result has shape
    [-1, len(data)] (line 862; numpy refuses it for an empty array).  The elements
    are of numpy's default integer type, as those of [out_data] (line 860). *)
Definition allgather_data (ranks : list Z) (data : Z -> tensor Zring) (v : Z) : outcome (tensor Zring) :=
  let sz u := hd 0 (tshape (atleast_1d (data u))) in
  if forallb (fun u => (zprod (tshape (atleast_1d (data u))) =? sz v)) ranks then
    if sz v =? 0 then ValueError else
    Returned (@mkt Zring [Z.of_nat (length ranks); sz v]
      (fun i => tat (atleast_1d (data (nth (Z.to_nat (nth 0 i 0)) ranks 0)))
                    (nth 1 i 0 :: map (fun _ => 0) (tl (tshape (atleast_1d (data (nth (Z.to_nat (nth 0 i 0)) ranks 0))))))))
  else Stuck.

(** backends/mpi/tensor_decomposition.py:37-43: worker [v] of the partition with
    shape [shape] and index [idx] stores its local shape in a zero array. *)
Definition own_shapes (shape idx local : list Z) : tensor Zring :=
  let dim := length shape in
  @mkt Zring (shape ++ [Z.of_nat dim])
    (fun j => if list_eq_dec Z.eq_dec (firstn dim j) idx then nth (Z.to_nat (nth dim j 0)) local 0 else 0).
