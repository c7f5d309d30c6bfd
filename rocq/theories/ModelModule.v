(** Model of the life cycle of the layers of src/distdl/nn: the pre-forward hook
    of nn/module.py and every layer's [_distdl_module_setup],
    [_distdl_module_teardown] and [_distdl_input_changed].

    The model follows one layer object on one worker.  What a layer stores
    during setup is represented by named attributes, each remembering the input
    structure it was computed from; the values themselves are the subject of the
    other files.  A setup is the list of its assignments in program order,
    interleaved with the places where a communication, a check or a constructor
    may raise.  Teardowns only assign attributes and free communicators and are
    taken not to raise. *)

From Verif Require Import Prelude ModelPartition ModelCollectives.

(** Attributes assigned by the setups
    (the setups cited below, e.g. nn/repartition.py:149-284). *)
Inductive slot : Type :=
| SInput        (* input_tensor_structure *)
| SGlobal       (* global_input_tensor_structure, global_input_shape *)
| SOutput       (* output_tensor_structure *)
| SOverXY       (* P_x_to_y_overlaps *)
| SOverYX       (* P_y_to_x_overlaps *)
| SBufXY        (* P_x_to_y_buffers *)
| SBufYX        (* P_y_to_x_buffers *)
| SHaloShape    (* halo_shape *)
| SHaloLayer    (* halo_layer *)
| SNeeded       (* needed_slices *)
| SInterp       (* interp_layer *)
| SSlices       (* slices *)
| SBuffers      (* buffers *)
| SPartitions   (* P_send and P_recv, P_allreduce *)
| SFactor.      (* normalization_factor *)

(** Whether two attributes of nn/repartition.py:149-284 and the other setups are the same. *)
Definition slot_eqb (a b : slot) : bool :=
  match a, b with
  | SInput, SInput | SGlobal, SGlobal | SOutput, SOutput | SOverXY, SOverXY
  | SOverYX, SOverYX | SBufXY, SBufXY | SBufYX, SBufYX | SHaloShape, SHaloShape
  | SHaloLayer, SHaloLayer | SNeeded, SNeeded | SInterp, SInterp | SSlices, SSlices
  | SBuffers, SBuffers | SPartitions, SPartitions | SFactor, SFactor => true
  | _, _ => false
  end.

(** Statements of a setup (e.g. nn/repartition.py:149-284). *)
Inductive step : Type :=
| Flag             (* self._distdl_is_setup = True *)
| Remember         (* self._input_tensor_structure = TensorStructure(input[0]) *)
| Save (a : slot)  (* an assignment of a part of the plan *)
| Risk.            (* statements that may raise *)

(** The layers with a setup of their own
    (the classes of nn/repartition.py, nn/broadcast.py and so on, see [setup_steps]). *)
Inductive layer : Type :=
| LRepartition | LBroadcast | LSumReduce | LAllSumReduce | LHaloExchange
| LPool | LFeatureConv | LChannelConv | LGeneralConv | LUpsample
| LLoss | LBatchNorm.

(** What the setups ask of a worker: whether it is active in [P_x], [P_y] and
    [P_w], whether the layer needs no communication there ([identity] or
    [serial]), and whether the loss is an average ([reduction])
    (e.g. nn/repartition.py:153-154, nn/broadcast.py:121-122, nn/loss.py:80-82). *)
Record role := mkrole {
  w_x : bool; w_y : bool; w_w : bool; w_own : bool; w_mean : bool
}.

(** Whether the worker is active at all, e.g. nn/repartition.py:153-154. *)
Definition w_any (w : role) : bool := w_x w || w_y w || w_w w.

(** nn/repartition.py:149-150, and the first two statements of the other setups. *)
Definition mark : list step := [Flag; Remember].
(** An if statement of a setup, e.g. nn/repartition.py:153-154. *)
Definition when (b : bool) (l : list step) : list step := if b then l else [].

(** nn/repartition.py:149-150 (mark), 153-154 (inactive), 156-170, 172-182 (checks),
    184-216, 220-245 and 249-274 (overlaps), 276-281 (buffers). *)
Definition repartition_setup (w : role) : list step :=
  mark ++
  when (w_x w || w_y w)
    ([Save SInput; Risk; Save SGlobal] ++ when (w_y w) [Save SOutput] ++ [Risk] ++
     when (w_x w) [Save SOverXY; Risk] ++ when (w_y w) [Save SOverYX; Risk] ++
     [Save SBufXY; Save SBufYX]).

(** nn/broadcast.py:119-139 and nn/sum_reduce.py:118-138. *)
Definition broadcast_setup (w : role) : list step :=
  when (w_x w || w_y w)
    (when (negb (w_own w)) [Risk; Save SPartitions; Save SInput; Risk; Save SOutput] ++ mark).

(** nn/all_sum_reduce.py:89-103. *)
Definition all_sum_reduce_setup (w : role) : list step :=
  when (w_x w)
    (when (negb (w_own w)) [Risk; Save SPartitions; Save SInput; Save SOutput] ++ mark).

(** nn/halo_exchange.py:101-113. *)
Definition halo_exchange_setup (w : role) : list step :=
  when (w_x w) [Save SSlices; Risk; Save SBuffers] ++ mark.

(** nn/pooling.py:165-218.  After the halo layer is stored only two columns of an
    array are turned into slices, which cannot raise. *)
Definition pool_setup (w : role) : list step :=
  mark ++ when (w_x w) [Risk; Save SHaloShape; Risk; Save SHaloLayer; Save SNeeded].

(** nn/conv_feature.py:252-306. *)
Definition feature_conv_setup (w : role) : list step :=
  mark ++ when (w_x w && negb (w_own w))
            [Risk; Save SHaloShape; Risk; Save SHaloLayer; Save SNeeded].

(** nn/conv_channel.py:276-288. *)
Definition channel_conv_setup (w : role) : list step :=
  when (w_any w && negb (w_own w)) mark.

(** nn/conv_general.py:420-482. *)
Definition general_conv_setup (w : role) : list step :=
  when (w_any w && negb (w_own w))
    ([Risk] ++
     when (w_x w) [Risk; Save SHaloShape; Risk; Save SHaloLayer; Save SNeeded] ++ mark).

(** nn/upsampling.py:130-220.  Everything after the halo layer repeats
    computations that [_compute_exchange_info] (line 157) has already done for
    the same shapes, so it is taken not to raise. *)
Definition upsample_setup (w : role) : list step :=
  mark ++ when (w_x w)
            [Risk; Save SHaloShape; Risk; Save SHaloLayer; Save SNeeded; Save SInterp].

(** nn/loss.py:80-90 and 239-257 (Kullback-Leibler). *)
Definition loss_setup (w : role) : list step :=
  when (w_x w) (when (w_mean w) [Risk; Save SFactor] ++ mark).

(** nn/batchnorm.py:117: the flag is never set. *)
Definition batchnorm_setup (w : role) : list step := [Risk; Save SGlobal].

(** The [_distdl_module_setup] of nn/repartition.py:132-284 and of the other layers above. *)
Definition setup_steps (k : layer) (w : role) : list step :=
  match k with
  | LRepartition => repartition_setup w
  | LBroadcast | LSumReduce => broadcast_setup w
  | LAllSumReduce => all_sum_reduce_setup w
  | LHaloExchange => halo_exchange_setup w
  | LPool => pool_setup w
  | LFeatureConv => feature_conv_setup w
  | LChannelConv => channel_conv_setup w
  | LGeneralConv => general_conv_setup w
  | LUpsample => upsample_setup w
  | LLoss => loss_setup w
  | LBatchNorm => batchnorm_setup w
  end.

(** Attributes reset by the teardowns: nn/repartition.py:298-307,
    nn/broadcast.py:156-163, nn/sum_reduce.py:155-162, nn/all_sum_reduce.py:120-126,
    nn/halo_exchange.py:118-119, nn/pooling.py:234-235, nn/conv_feature.py:323-324,
    nn/conv_channel.py:304 (none), nn/conv_general.py:499-500,
    nn/upsampling.py:237-238, nn/loss.py:108; batch normalisation inherits
    nn/module.py:71-84, which does nothing. *)
Definition teardown_slots (k : layer) : list slot :=
  match k with
  | LRepartition => [SOverXY; SOverYX; SBufXY; SBufYX]
  | LBroadcast | LSumReduce | LAllSumReduce => [SPartitions; SInput; SOutput]
  | LHaloExchange => [SSlices; SBuffers]
  | LPool | LFeatureConv | LGeneralConv | LUpsample => [SNeeded; SHaloLayer]
  | LLoss => [SFactor]
  | LChannelConv | LBatchNorm => []
  end.

(** Whether a layer overrides teardown and [_distdl_input_changed]
    (all do but nn/batchnorm.py:103-117). *)
Definition tracks_input (k : layer) : bool :=
  match k with LBatchNorm => false | _ => true end.

(** What [forward] reads, in this order: nn/repartition.py:338-356 with
    backends/mpi/functional/repartition.py:103-166, nn/broadcast.py:198-213,
    nn/sum_reduce.py:199-213, nn/all_sum_reduce.py:163-170,
    nn/halo_exchange.py:144-151, nn/pooling.py:286-298, nn/conv_feature.py:366-391,
    nn/conv_general.py:541-560, nn/upsampling.py:270-285, nn/loss.py:158-178,
    nn/batchnorm.py:188-215. *)
Definition forward_reads (k : layer) (w : role) : list slot :=
  match k with
  | LRepartition =>
      if w_x w || w_y w then
        [SGlobal; SInput] ++ (if w_y w then [SOutput; SOverYX; SBufYX] else []) ++
        (if w_x w then [SOverXY; SBufXY] else [])
      else []
  | LBroadcast | LSumReduce =>
      if (w_x w || w_y w) && negb (w_own w) then [SPartitions; SInput; SOutput] else []
  | LAllSumReduce =>
      if w_x w && negb (w_own w) then [SPartitions; SInput; SOutput] else []
  | LHaloExchange => if w_x w then [SSlices; SBuffers] else []
  | LPool => if w_x w then [SHaloShape; SHaloLayer; SNeeded] else []
  | LFeatureConv =>
      if w_x w && negb (w_own w) then [SHaloShape; SHaloLayer; SNeeded] else []
  | LChannelConv => []
  | LGeneralConv =>
      if w_x w && negb (w_own w) then [SHaloShape; SHaloLayer; SNeeded] else []
  | LUpsample => if w_x w then [SHaloShape; SHaloLayer; SNeeded; SInterp] else []
  | LLoss => if w_x w && w_mean w then [SFactor] else []
  | LBatchNorm => [SGlobal]
  end.

(** Attributes whose reset value makes [forward] raise: [zip] over [None] and a
    call of [None].  The others hold values (an empty partition, an empty
    structure, a factor of one, empty lists, [None] as an index) with which
    [forward] would silently go on
    (e.g. functional/repartition.py:146 and nn/pooling.py:298). *)
Definition strict (a : slot) : bool :=
  match a with SBufXY | SBufYX | SHaloLayer | SSlices => true | _ => false end.

(** A layer object on one worker: [_distdl_is_setup], [_input_tensor_structure],
    and the attributes, each with the input structure it was computed from
    (nn/module.py:30). *)
Record mstate := mkm {
  m_flag : bool;
  m_struct : option tstruct;
  m_plan : slot -> option tstruct
}.

(** nn/module.py:30 and the layers' constructors, e.g. nn/repartition.py:61-87. *)
Definition initial : mstate := mkm false None (fun _ => None).

(** An assignment to an attribute, e.g. nn/repartition.py:149-284. *)
Definition put (p : slot -> option tstruct) (a : slot) (o : option tstruct) : slot -> option tstruct :=
  fun b => if slot_eqb a b then o else p b.

(** What an observer sees of a call (nn/module.py:36-56). *)
Inductive event : Type :=
| EInput (s : tstruct)                            (* the call, with its input *)
| ETeardown                                       (* the plan is torn down *)
| ESave (a : slot)                                (* a part of a plan is built *)
| EForward (r : list (slot * option tstruct))     (* forward completes, having read these *)
| EError.                                         (* the call raises *)

(** The statements of a setup.  [f] says which of the risky places raises
    (e.g. nn/repartition.py:149-284). *)
Fixpoint run_steps (s : tstruct) (l : list step) (f : option nat) (st : mstate)
  : mstate * list event * bool :=
  match l with
  | [] => (st, [], false)
  | Flag :: r => run_steps s r f (mkm true (m_struct st) (m_plan st))
  | Remember :: r => run_steps s r f (mkm (m_flag st) (Some s) (m_plan st))
  | Save a :: r =>
      let '(st', ev, e) :=
        run_steps s r f (mkm (m_flag st) (m_struct st) (put (m_plan st) a (Some s))) in
      (st', ESave a :: ev, e)
  | Risk :: r =>
      match f with
      | Some O => (st, [], true)
      | Some (S n) => run_steps s r (Some n) st
      | None => run_steps s r None st
      end
  end.

(** utilities/torch.py:45-49 [TensorStructure.__eq__]. *)
Definition struct_eqb (a b : tstruct) : bool :=
  zlist_eqb (st_shape a) (st_shape b) && (st_dtype a =? st_dtype b) && Bool.eqb (st_rg a) (st_rg b).

(** [_distdl_input_changed], e.g. nn/repartition.py:324-326; an empty structure
    differs from that of every tensor.  nn/module.py:86-98 returns [None] for
    batch normalisation. *)
Definition input_changed (k : layer) (st : mstate) (s : tstruct) : bool :=
  tracks_input k &&
  match m_struct st with Some c => negb (struct_eqb c s) | None => true end.

(** nn/module.py:109. *)
Definition requires_reset (k : layer) (st : mstate) (s : tstruct) : bool :=
  negb (m_flag st) || input_changed k st s.

(** The teardowns, see [teardown_slots]; each ends with, e.g.,
    nn/repartition.py:310-311. *)
Definition teardown (k : layer) (st : mstate) : mstate :=
  if tracks_input k
  then mkm false None (fold_left (fun p a => put p a None) (teardown_slots k) (m_plan st))
  else st.

(** nn/module.py:49-54. *)
Definition pre_hook (k : layer) (w : role) (s : tstruct) (f : option nat) (st : mstate)
  : mstate * list event * bool :=
  if requires_reset k st s then
    if m_flag st then
      let '(st', ev, e) := run_steps s (setup_steps k w) f (teardown k st) in
      (st', ETeardown :: ev, e)
    else run_steps s (setup_steps k w) f st
  else (st, [], false).

(** [forward] as far as it uses the plan
    (see [forward_reads] for the lines of nn/repartition.py and others). *)
Fixpoint read_plan (l : list slot) (p : slot -> option tstruct)
  : option (list (slot * option tstruct)) :=
  match l with
  | [] => Some []
  | a :: r =>
      if strict a && match p a with None => true | Some _ => false end then None
      else option_map (cons (a, p a)) (read_plan r p)
  end.

(** [torch.nn.Module.__call__]: the pre-hook, then [forward] unless it raised. *)
Definition call (k : layer) (w : role) (i : tstruct * option nat) (st : mstate)
  : mstate * list event :=
  let '(st', ev, e) := pre_hook k w (fst i) (snd i) st in
  (st', EInput (fst i) :: ev ++
        [if e then EError
         else match read_plan (forward_reads k w) (m_plan st') with
              | Some r => EForward r
              | None => EError
              end]).

(** A history of calls of one layer object, with the events of each call
    (nn/module.py:36-56). *)
Fixpoint history (k : layer) (w : role) (l : list (tstruct * option nat)) (st : mstate)
  : list (list event) :=
  match l with
  | [] => []
  | i :: r => let '(st', ev) := call k w i st in ev :: history k w r st'
  end.
