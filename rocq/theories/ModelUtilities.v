(** Small utilities: element type tables (utilities/dtype.py), padding
    conversion (utilities/torch.py), zero-volume correction
    (functional/zero_volume_corrector.py) and the convolution front end
    (nn/conv.py). *)

From Verif Require Import Prelude Ring Tensor.

(** * Python dictionaries *)

Section Dict.
  Context {K V : Type} (eqb : K -> K -> bool).

  (** [d[k]], [None] for a KeyError (dtype.py:56-67). *)
  Fixpoint dict_get (d : list (K * V)) (k : K) : option V :=
    match d with
    | [] => None
    | (k', v) :: t => if eqb k k' then Some v else dict_get t k
    end.

  (** [d[k] = v]: an existing key keeps its place (dtype.py:56-67). *)
  Fixpoint dict_set (d : list (K * V)) (k : K) (v : V) : list (K * V) :=
    match d with
    | [] => [(k, v)]
    | (k', v') :: t => if eqb k k' then (k', v) :: t else (k', v') :: dict_set t k v
    end.

  (** A dict display or comprehension: entries set one after the other
      (dtype.py:30-67). *)
  Definition dict_of (l : list (K * V)) : list (K * V) :=
    fold_left (fun d kv => dict_set d (fst kv) (snd kv)) l [].
End Dict.

(** * utilities/dtype.py *)

(** The element types of the tables, dtype.py:31-52. *)
Inductive elt :=
| EBool | EUint8 | EInt8 | EInt16 | EInt32 | EInt64
| EFloat16 | EFloat32 | EFloat64 | EComplex64 | EComplex128.

(** A key of the NumPy tables: the dtype object [np.dtype(np.float32)] or the
    scalar class [np.float32].  They compare equal but hash differently, so they
    are two keys (dtype.py:30-53). *)
Inductive npkey := NpDtype (e : elt) | NpClass (e : elt).

(** A torch dtype: one of the tables' types or another one, such as
    [torch.bfloat16]. *)
Inductive torchty := TorchTy (e : elt) | TorchOther (n : Z).

(** Keys of the dictionaries of dtype.py:30-67 are compared. *)
Definition elt_eq_dec (a b : elt) : {a = b} + {a <> b}.
Proof. decide equality. Defined.
(** The same for NumPy's types, dtype.py:30-67. *)
Definition npkey_eq_dec (a b : npkey) : {a = b} + {a <> b}.
Proof. decide equality; apply elt_eq_dec. Defined.
(** The same for torch's types, dtype.py:30-67. *)
Definition torchty_eq_dec (a b : torchty) : {a = b} + {a <> b}.
Proof. decide equality; [apply elt_eq_dec|apply Z.eq_dec]. Defined.

(** [==] of NumPy's types, dtype.py:30-67. *)
Definition npkey_eqb (a b : npkey) : bool := if npkey_eq_dec a b then true else false.
(** [==] of torch's types, dtype.py:30-67. *)
Definition torchty_eqb (a b : torchty) : bool := if torchty_eq_dec a b then true else false.

(** The order of the table of dtype.py:30-53. *)
Definition table_order : list elt :=
  [EBool; EUint8; EInt8; EInt16; EInt32; EInt64;
   EFloat16; EFloat32; EFloat64; EComplex64; EComplex128].

(** dtype.py:30-53. *)
Definition numpy_to_torch : list (npkey * torchty) :=
  dict_of npkey_eqb
    (map (fun e => (NpDtype e, TorchTy e)) table_order ++
     map (fun e => (NpClass e, TorchTy e)) table_order).

(** dtype.py:56. *)
Definition torch_to_numpy : list (torchty * npkey) :=
  dict_of torchty_eqb (map (fun kv => (snd kv, fst kv)) numpy_to_torch).

Section TypeCodes.
  (** [np.dtype(t).num]: NumPy's number of an element type. *)
  Variable num : elt -> Z.

  (** dtype.py:62, [np.dtype(key).num]. *)
  Definition np_num (k : npkey) : Z :=
    match k with NpDtype e => num e | NpClass e => num e end.

  (** dtype.py:62. *)
  Definition numpy_to_code : list (npkey * Z) :=
    dict_of npkey_eqb (map (fun kv => (fst kv, np_num (fst kv))) numpy_to_torch).

  (** dtype.py:63. *)
  Definition code_to_numpy : list (Z * npkey) :=
    dict_of Z.eqb (map (fun kv => (snd kv, fst kv)) numpy_to_code).

  (** dtype.py:66; [numpy_to_intID_dtype_dict[key]] never fails there, a KeyError
      would leave the entry out here. *)
  Definition torch_to_code : list (torchty * Z) :=
    dict_of torchty_eqb
      (flat_map (fun kv => match dict_get npkey_eqb numpy_to_code (fst kv) with
                           | Some c => [(snd kv, c)]
                           | None => []
                           end) numpy_to_torch).

  (** dtype.py:67. *)
  Definition code_to_torch : list (Z * torchty) :=
    dict_of Z.eqb (map (fun kv => (snd kv, fst kv)) torch_to_code).
End TypeCodes.

(** * utilities/torch.py *)

(** torch.py:43-49: reverse the rows, then flatten. *)
Definition distdl_padding_to_torch_padding (pad : list (Z * Z)) : list Z :=
  flat_map (fun p => [fst p; snd p]) (rev pad).

Section Pad.
  Context {R : CRing}.

  (** [np.pad]/[F.pad] of one dimension [d] with a constant: [l] entries before
      and [r] after; negative numbers remove entries
      (numpy, torch; e.g. conv_feature.py:388). *)
  Definition pad_dim (value : R) (d : nat) (l r : Z) (t : tensor R) : tensor R :=
    mkt (upd d (nth d (tshape t) 0 + l + r) (tshape t))
        (fun i => let k := nth d i 0 - l in
                  if (0 <=? k) && (k <? nth d (tshape t) 0)
                  then tat t (upd d k i) else value).

  (** [torch.nn.functional.pad(t, pad, mode='constant', value=value)]: the pairs
      of the flat list apply to the last dimension, the one before it, and so
      on.  [None] for a list of odd length or with too many pairs. *)
  Fixpoint f_pad (value : R) (pad : list Z) (dims : nat) (t : tensor R) : option (tensor R) :=
    match pad, dims with
    | [], _ => Some t
    | l :: r :: pad', S d => f_pad value pad' d (pad_dim value d l r t)
    | _, _ => None
    end.
End Pad.

(** * functional/zero_volume_corrector.py *)

Section ZeroVolume.
  Context {R : CRing}.

  (** What [forward] leaves in the context (lines 53-54). *)
  Record zv_ctx := mkzv { zv_sh : list Z; zv_zero : bool }.

  (** Lines 35-59.  [np.prod(()) == 1.0], so a scalar is not zero-volume. *)
  Definition zv_forward (input : tensor R) : zv_ctx * tensor R :=
    let z := zprod (tshape input) =? 0 in
    (mkzv (tshape input) z, if z then mkt [] (fun _ => rzero) else input).

  (** Lines 62-87 with [zero_volume_tensor] of utilities/torch.py:5-13; [None]: an
      IndexError of [sh[0]]. *)
  Definition zv_backward (c : zv_ctx) (dy : tensor R) : option (tensor R) :=
    if zv_zero c then
      match zv_sh c with
      | b :: _ => Some (mkt [b; 0] (fun _ => rzero))
      | [] => None
      end
    else Some dy.
End ZeroVolume.

(** * nn/conv.py *)

(** The classes that conv.py:36-61 chooses from. *)
Inductive conv_class := FeatureConv | ChannelConv | GeneralConv.

(** The constructors' exceptions
    (conv.py:61, conv_channel.py:145-172, conv_general.py:157-180). *)
Inductive conv_error := NoMatchingClass | SpatialMismatch | SpatialNotOne | ChannelMismatch | BadIndex.

(** [np.any(a != b)] of one-dimensional arrays: equal lengths elementwise, a
    length of one is broadcast, anything else compares as different
    (numpy, conv_general.py:157). *)
Definition np_any_neq (a b : list Z) : bool :=
  let neq x y := negb (x =? y) in
  match a, b with
  | [x], _ => existsb (neq x) b
  | _, [y] => existsb (fun x => neq x y) a
  | _, _ => if Nat.eqb (length a) (length b)
            then existsb (fun p => neq (fst p) (snd p)) (combine a b) else true
  end.

(** conv.py:36-61, on the shapes of the partitions.  A worker outside a Cartesian
    partition knows its shape as well (partition.py:271-284, 953-962). *)
Definition conv_select (P_x : list Z) (P_y P_w : option (list Z)) : conv_class + conv_error :=
  match P_y, P_w with
  | None, None => inl FeatureConv
  | Some y, Some _ =>
      if forallb (Z.eqb 1) (skipn 2 P_x) && forallb (Z.eqb 1) (skipn 2 y)
      then inl ChannelConv else inl GeneralConv
  | _, _ => inr NoMatchingClass
  end.

(** The checks of conv_channel.py:145-150 and conv_general.py:157-160 made by a
    worker of P_x ([c] is 1), and of conv_channel.py:167-172 and
    conv_general.py:177-180 made by a worker of P_y ([c] is 0). *)
Definition conv_check (k : conv_class) (c : nat) (P : list Z) (P_w : list Z) : option conv_error :=
  let spatial := np_any_neq (skipn 2 P) (skipn 2 P_w) in
  let not_one := match k with
                 | ChannelConv => np_any_neq (skipn 2 P) (repeat 1 (length (skipn 2 P)))
                 | _ => false
                 end in
  if spatial then Some SpatialMismatch
  else if not_one then Some SpatialNotOne
  else match nth_error P_w c, nth_error P 1 with
       | Some a, Some b => if a =? b then None else Some ChannelMismatch
       | _, _ => Some BadIndex
       end.

(** What a worker sees of the constructor: which class is built and which check
    fails, [x_active]/[y_active] telling whether it belongs to P_x and P_y.
    The feature class (conv_feature.py:85-216) checks nothing about P_x. *)
Definition conv_construct (P_x : list Z) (P_y P_w : option (list Z)) (x_active y_active : bool)
  : conv_class + conv_error :=
  match conv_select P_x P_y P_w with
  | inl FeatureConv => inl FeatureConv
  | inl k =>
      match P_y, P_w with
      | Some y, Some w =>
          match (if x_active then conv_check k 1 P_x w else None) with
          | Some e => inr e
          | None => match (if y_active then conv_check k 0 y w else None) with
                    | Some e => inr e
                    | None => inl k
                    end
          end
      | _, _ => inr NoMatchingClass
      end
  | inr e => inr e
  end.
