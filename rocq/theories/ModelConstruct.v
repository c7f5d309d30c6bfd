(** Model of the constructors of the layers over distributed features:
    nn/pooling.py, nn/conv_feature.py and nn/upsampling.py: which arguments they
    reject, on which workers, and what they keep of the arguments. *)

From Coq Require Import String.
From Verif Require Import Prelude SpecIndex ModelSlicing ModelDecomposition ModelPartition ModelHaloMixin ModelFeatureLayer.

(** The argument [buffer_manager] (pooling.py:84-88, conv_feature.py:104-108,
    upsampling.py:80-84): none, one of the backend, or an object of another type. *)
Inductive manager := NoManager | BackendManager | OtherManager.

(** pooling.py:84-88, conv_feature.py:104-108, upsampling.py:80-84. *)
Definition check_manager (m : manager) : result unit :=
  match m with OtherManager => Raise ErrValue | _ => Ok tt end.

(** What the constructor keeps: the expanded parameters (pooling.py:95-98,
    conv_feature.py:115-119), the window and padding of the torch layer
    (pooling.py:104-112, conv_feature.py:126-146) and [local_padding]
    (pooling.py:123, conv_feature.py:162), [None] where none is computed. *)
Record built := mkbuilt {
  b_window : window;
  b_torch_padding : list Z;
  b_local_padding : option (list (Z * Z))
}.

(** pooling.py:116-123, conv_feature.py:151-162. *)
Definition local_padding_of (P : part) (idx : list Z) (padding : list Z) : result (list (Z * Z)) :=
  let* global_padding := np_pad_left (List.length (p_shape P)) 0 padding in
  Ok (compute_local_padding (p_shape P) idx global_padding).

(** pooling.py:68-137 on worker [v], [avg] as [is_avg] (line 80), [dims] as
    [num_dimensions]; [None] on an inactive worker (lines 90-91).  The torch pools
    (lines 104-112) store their arguments without a check. *)
Definition pool_init (P : part) (avg : bool) (dims : nat) (m : manager) (w : window) (v : Z) : result (option built) :=
  let* _ := check_manager m in
  match index_in P v with
  | None => Ok None
  | Some idx =>
      let* e := expand_window_parameters dims w in
      if avg && negb (forallb (fun x => x =? 1) (w_dilation e)) then Raise ErrValue
      else let* lp := local_padding_of P idx (w_padding e) in
           Ok (Some (mkbuilt e (repeat 0 dims) (Some lp)))
  end.

(** The checks in the constructor of torch's convolutions, called at
    conv_feature.py:126-146. *)
Definition torch_conv_init (cin cout groups : Z) (mode : string) : result unit :=
  if negb (cin mod groups =? 0) then Raise ErrValue
  else if negb (cout mod groups =? 0) then Raise ErrValue
  else if existsb (String.eqb mode) ["zeros"; "reflect"; "replicate"; "circular"]%string then Ok tt
  else Raise ErrValue.

(** conv_feature.py:85-162 on worker [v]; [None] on an inactive worker (lines
    110-111).  On a lone worker (lines 125-136, 148-149) the torch layer gets the
    padding and its mode, otherwise no padding and the mode 'zeros' (lines 138-146).
    The rest of the constructor (lines 164-224) is in ModelParameters. *)
Definition conv_feature_init (P : part) (dims : nat) (m : manager) (w : window) (cin cout groups : Z) (mode : string)
    (v : Z) : result (option built) :=
  let* _ := check_manager m in
  match index_in P v with
  | None => Ok None
  | Some idx =>
      let* e := expand_window_parameters dims w in
      if Nat.eqb (List.length (p_ranks P)) 1
      then let* _ := torch_conv_init cin cout groups mode in Ok (Some (mkbuilt e (w_padding e) None))
      else let* _ := torch_conv_init cin cout groups "zeros" in
           let* lp := local_padding_of P idx (w_padding e) in
           Ok (Some (mkbuilt e (repeat 0 dims) (Some lp)))
  end.

(** How upsampling.py:61-114 ends: with a NotImplementedError, a ValueError, or a
    layer. *)
Inductive upsample_made := UpNotImplemented | UpValueError | UpMade (active : bool).

(** upsampling.py:61-114 on worker [v]: [sized] and [scaled] say whether [size] and
    [scale_factor] are given; the result says whether the layer is active (lines
    86-87). *)
Definition upsample_init (P : part) (m : manager) (sized scaled : bool) (mode : string) (v : Z) : upsample_made :=
  if String.eqb mode "cubic" then UpNotImplemented
  else if negb sized && negb scaled then UpValueError
  else if sized && scaled then UpValueError
  else match check_manager m with Ok _ => UpMade (is_active (p_ranks P) v) | Raise _ => UpValueError end.
