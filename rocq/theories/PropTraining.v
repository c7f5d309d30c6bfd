(** Training a network of distributed layers: C63. *)

From Coq Require Import QArith Qcanon.
From Verif Require Import Prelude ModelSlicing ModelDecomposition ModelPartition SpecIndex SpecLayout SpecPartition ProofSlicing ProofDecomposition
  ProofPartition Ring Tensor Blocks ModelCollectives ModelBuffer P2P Rounds ModelRepartition PropRepartition ModelHaloMixin ProofHaloMixin ModelHaloExchange
  PropHaloMixin PropHaloExchange ModelFeatureLayer SpecFeature PropFeatureLayer PropFeatureConv ModelFeatureGrad SpecFeatureGrad PropFeatureGrad PropConvGrad
  ModelMaxPoolGrad SpecMaxPoolGrad ProofMaxPoolGrad PropMaxPoolGrad ModelLinear PropLinear ModelUtilities ModelConv ProofConv PropConv PropConvChannel PropConvGeneral
  ModelBatchNorm SpecBatchNorm PropBatchNorm PropBatchNormGrad ModelScalars ModelUpsample SpecInterpolate ProofUpsampleLayer PropUpsample PropUpsampleLayer ModelLoss PropLoss
  ModelTraining SpecTraining ProofTraining ProofStages ProofWindows ProofConvStages ProofNormStage ProofUpsampleStage.
Local Open Scope Z_scope.

(** The layers that a network may have: [stage p y q hs p'] if layer [y], given a
    tensor at [p] and parameters at [hs], does at [p'] what the sequential layer [q]
    does.  The conditions are those of the properties of the single layers. *)
Inductive stage {R : CRing} (world : list Z) : place -> @layer R -> @seq_layer R -> list home -> place -> Prop :=
| stage_linear Px Py Pw fi fo use_bias same_xw same_wy dt dt' rg rg' b n_in n_out :
    linear_partitions Px Py Pw fi fo same_xw same_wy ->
    (forall v, In v (p_ranks Px) \/ In v (p_ranks Py) \/ In v (p_ranks Pw) -> In v world) ->
    0 <= b -> 0 <= n_in -> 0 <= n_out ->
    stage world (mkplace Px (balanced [b; n_in] (p_shape Px))) (YLinear Px Py Pw use_bias same_xw same_wy dt dt' rg rg')
      (seq_linear b n_in n_out use_bias) (linear_homes Pw fi fo n_in n_out use_bias) (mkplace Py (balanced [b; n_out] (p_shape Py)))
| stage_channel Px Py Pw co ci w groups cin cout b xs ys use_bias dt dt' rg rg' :
    conv_sizes Px Py Pw co ci (repeat 1 (length (w_kernel w))) w groups cin cout b xs ys ->
    (forall v, In v (p_ranks Px) \/ In v (p_ranks Py) \/ In v (p_ranks Pw) -> In v world) ->
    stage world (mkplace Px (balanced (b :: cin :: xs) (p_shape Px))) (YChannelConv Px Py Pw w groups use_bias dt dt' rg rg')
      (seq_conv w cout groups use_bias ys) (conv_homes Pw co ci w cin cout groups use_bias)
      (mkplace Py (balanced (b :: cout :: ys) (p_shape Py)))
| stage_general Px Py Pw co ci S L w groups cin cout b xs ys use_bias dt dt' dtw dtb rg rg' rgw rgb :
    conv_sizes Px Py Pw co ci S w groups cin cout b xs ys ->
    (forall v, In v (p_ranks Px) \/ In v (p_ranks Py) \/ In v (p_ranks Pw) -> In v world) ->
    feature_given world Px L w -> layout_shape L = b :: cin :: xs ->
    ((1 < length (p_ranks Pw))%nat -> within L w (b :: cin :: ys)) ->
    stage world (mkplace Px L) (YGeneralConv Px Py Pw w groups use_bias dt dt' dtw dtb rg rg' rgw rgb)
      (seq_conv w cout groups use_bias ys) (conv_homes Pw co ci w cin cout groups use_bias)
      (mkplace Py (balanced (b :: cout :: ys) (p_shape Py)))
| stage_feature P L w groups cin cout b xs ys use_bias dt rg :
    feature_given world P L w -> nth 1 (p_shape P) 0 = 1 ->
    0 < cout -> 0 < groups -> (groups | cout) -> (groups | cin) ->
    layout_shape L = b :: cin :: xs -> counts xs w ys -> 0 < b -> 0 < cin -> Forall (fun n => 0 < n) ys ->
    ((1 < length (p_ranks P))%nat -> within L w (b :: cin :: ys)) ->
    stage world (mkplace P L) (YFeatureConv P w cout groups use_bias dt rg) (seq_conv w cout groups use_bias ys)
      (feature_homes P w cin cout groups use_bias) (mkplace P (balanced (b :: cout :: ys) (p_shape P)))
| stage_pool P L w b c xs ys f cout K :
    feature_given world P L w -> layout_shape L = b :: c :: xs -> counts xs w ys ->
    0 < b -> 0 < c -> Forall (fun n => 0 < n) ys -> 0 <= cout c -> within L w (b :: c :: ys) ->
    linear_kernel w f cout K -> nth 1 (p_shape P) 0 = 1 \/ per_channel f cout ->
    stage world (mkplace P L) (YPool P w f cout K) (seq_pool w f cout K ys) [] (mkplace P (balanced (b :: cout c :: ys) (p_shape P)))
| stage_max_pool P L w b c xs ys choose value :
    feature_given world P L w -> layout_shape L = b :: c :: xs -> counts xs w ys ->
    0 < b -> 0 < c -> Forall (fun n => 0 < n) ys -> within L w (b :: c :: ys) -> choice_local w choose ->
    stage world (mkplace P L) (YMaxPool P w choose value) (seq_max_pool w choose value ys) []
      (mkplace P (balanced (b :: c :: ys) (p_shape P)))
| stage_repartition Px Py L preserve_batch rg :
    repartition_given world Px Py L ->
    stage world (mkplace Px L) (YRepartition Px Py preserve_batch rg) seq_identity []
      (mkplace Py (balanced (layout_shape L) (p_shape Py)))
(* the constructor reads the index of every worker (batchnorm.py:60-63), so none is outside *)
| stage_batchnorm A P num_features eps momentum affine track dt rg L :
    linear_division A -> part_ok P -> (2 <= length (p_shape P))%nat -> 0 <= num_features -> fits P num_features L ->
    (forall v, In v world <-> In v (p_ranks P)) ->
    stage world (mkplace P L) (YBatchNorm A P num_features eps momentum affine track dt rg) (seq_batchnorm A eps affine)
      (norm_homes P num_features affine) (mkplace P L)
| stage_upsample P weight a X Y :
    upsamples weight world P a X Y ->
    stage world (mkplace P (balanced X (p_shape P))) (YUpsample P weight a) (seq_upsample (asked a) weight Y) []
      (mkplace P (balanced Y (p_shape P)))
| stage_activation p act slope : stage world p (YActivation act slope) (seq_activation act slope) [] p
(* only the batch may be distributed, in any way; the workers stay the same *)
| stage_reshape P P' e s s' :
    part_ok P -> part_ok P' -> p_ranks P' = p_ranks P ->
    p_shape P = Z.of_nat (length e) :: ones s -> p_shape P' = Z.of_nat (length e) :: ones s' ->
    nonneg_shape s -> nonneg_shape s' -> zprod s' = zprod s ->
    stage world (mkplace P (e :: whole s)) (YReshape P s') (seq_reshape s') [] (mkplace P' (e :: whole s')).

(** The training of a network of such layers, with a loss and an optimizer that works
    element by element, on any sequence of inputs and targets: every execution
    completes, and the parameters, the states of the optimizer and the losses are
    those of the sequential training. *)
Definition C63_statement : Prop :=
  forall (R : CRing) (world : list Z) (A : arith R) (f df : R -> R -> R) (P : part) (L : layout) (kl : bool) (r : reduction)
    (dt : Z -> Z) (rg : Z -> bool) (o : @optimizer R) (p : place) (net : list layer) (qs : list seq_layer) (hss : list (list home))
    (Ths : list (list (@slots R))) (ths : list (Z -> list (@slots R))) (sdata : list (tensor R * tensor R))
    (data : list ((Z -> tensor R) * (Z -> tensor R))),
  linked (stage world) p net qs hss (mkplace P L) ->
  part_ok P -> layout_ok L -> layout_workers L = p_shape P ->
  accepts kl r = true -> r <> RNone -> (r = RSum -> unit_division A) ->
  all_held world hss Ths ths ->
  Forall2 (fun D d => held world p (fst D) (fst d) /\ holds_blocks P L (snd D) (snd d)) sdata data ->
  every_training world A f df P kl r dt rg o net ths data (fun ths' losses =>
    let '(Ths', ls) := seq_training A f df r o qs Ths sdata in
    all_held world hss Ths' ths' /\ Forall2 (loss_held P) ls losses).

Lemma cut_balanced b n p : balanced [b; n] [1; p] = last_cut [b] n p.
Proof.
  unfold last_cut, balanced. cbn [map2 map app]. f_equal. unfold balanced1. change (zrange 1) with [0]. cbn [map].
  rewrite Z.mod_1_r, Z.div_1_r. reflexivity.
Qed.

Lemma stage_sound {R : CRing} world p (y : @layer R) q hs p' : stage world p y q hs p' -> sound world p y q hs p'.
Proof.
  intros H. destruct H.
  - pose proof H as (_ & _ & _ & _ & _ & -> & -> & _). rewrite !cut_balanced. now apply linear_sound.
  - now apply channel_sound with (xs := xs).
  - now apply general_sound with (S := S) (xs := xs).
  - now apply feature_sound with (xs := xs).
  - now apply pool_sound with (xs := xs).
  - now apply max_pool_sound with (xs := xs).
  - now apply move_sound.
  - now apply norm_sound.
  - now apply upsample_sound.
  - apply activation_sound.
  - now apply reshape_sound.
Qed.

Lemma linked_sound {R : CRing} world p (net : list (@layer R)) qs hss p' :
  linked (stage world) p net qs hss p' -> linked (sound world) p net qs hss p'.
Proof. induction 1; econstructor; eauto using stage_sound. Qed.

Lemma C63_proof : C63_statement.
Proof.
  intros R world A f df P L kl r dt rg o p net qs hss Ths ths sdata data HN HP HL HLP Ha Hr Hs HA HD.
  eapply training_held; eauto using linked_sound. destruct (seq_training A f df r o qs Ths sdata) as [Ths' ls]. now split.
Qed.

Theorem C63_training : C63_statement.
Proof. exact C63_proof. Qed.

(** What the sequential batch normalisation passes back is the gradient of the loss:
    of the derivative of its outputs ([bn_gradients], C56). *)
Definition C63_batchnorm_statement : Prop :=
  forall (R : CRing) (A : arith R) (eps : R) (affine : bool) (ps : list (tensor R)) (X dY : tensor R),
  linear_division A -> (2 <= length (tshape X))%nat -> tshape dY = tshape X ->
  bn_gradients A eps affine true true fresh (at_channel (weight_of ps)) (at_channel (bias_of ps)) X dY
    (q_back (seq_batchnorm A eps affine) ps X dY)
    (at_channel (nth 0 (q_grads (seq_batchnorm A eps affine) ps X dY) no_tensor))
    (at_channel (nth 1 (q_grads (seq_batchnorm A eps affine) ps X dY) no_tensor)).

Theorem C63_batchnorm_derivative : C63_batchnorm_statement.
Proof.
  intros R A eps affine ps X dY HA HX EY.
  pose proof (sequential_gradients A HA eps affine true true fresh (at_channel (weight_of ps)) (at_channel (bias_of ps)) X dY HX EY) as H.
  destruct affine; exact H.
Qed.

(** ** Example

    A network of three workers: a convolution of a distributed signal (kernel 3,
    padding 1, two output channels) and a max pooling on workers 0 and 1, the result
    moved to worker 2 and flattened there, a linear layer whose outputs are on workers
    1 and 0, the square, and the sum of the squared errors; trained by SGD with
    momentum. *)
Definition tr_world : list Z := [0; 1; 2].
Definition tr_P : part := mkpart 0 [0; 1] [1; 1; 2].
Definition tr_M : part := mkpart 0 [2] [1; 1; 1].
Definition tr_F : part := mkpart 0 [2] [1; 1].
Definition tr_W : part := mkpart 0 [0; 2] [2; 1].
Definition tr_Y : part := mkpart 0 [1; 0] [1; 2].
Definition tr_conv : window := mkwindow [3] [1] [1] [1].
Definition tr_pool : window := mkwindow [2] [2] [0] [1].
Definition tr_max : @choice Zring := @first_max Zring Z.gtb tr_pool.
Definition tr_in : layout := balanced [1; 1; 4] [1; 1; 2].
Definition no_t : Z -> Z := fun _ => 0.
Definition no_g : Z -> bool := fun _ => true.
Definition tr_net : list (@layer Zring) :=
  [YFeatureConv tr_P tr_conv 2 1 true no_t no_g; YMaxPool tr_P tr_pool tr_max (-1000 : car Zring); YRepartition tr_P tr_M false no_g;
   YReshape tr_M [4]; YLinear tr_F tr_Y tr_W true false false no_t no_t no_g no_g;
   YActivation (fun a : Zring => a * a) (fun a : Zring => 2 * a)].
Definition tr_seq : list (@seq_layer Zring) :=
  [seq_conv tr_conv 2 1 true [4]; seq_max_pool tr_pool tr_max (-1000 : car Zring) [2]; seq_identity; seq_reshape [4]; seq_linear 1 4 2 true;
   seq_activation (fun a : Zring => a * a) (fun a : Zring => 2 * a)].
Definition tr_homes : list (list home) :=
  [feature_homes tr_P tr_conv 1 2 1 true; []; []; []; linear_homes tr_W 1 2 4 2 true; []].

Lemma tr_P_ok : part_ok tr_P. Proof. split; [repeat constructor; cbn; lia|]. split; [discriminate|]. split; [repeat constructor|reflexivity]. Qed.
Lemma tr_M_ok : part_ok tr_M. Proof. split; [repeat constructor; cbn; lia|]. split; [discriminate|]. split; [repeat constructor|reflexivity]. Qed.
Lemma tr_F_ok : part_ok tr_F. Proof. split; [repeat constructor; cbn; lia|]. split; [discriminate|]. split; [repeat constructor|reflexivity]. Qed.
Lemma tr_W_ok : part_ok tr_W. Proof. split; [repeat constructor; cbn; lia|]. split; [discriminate|]. split; [repeat constructor|reflexivity]. Qed.
Lemma tr_Y_ok : part_ok tr_Y. Proof. split; [repeat constructor; cbn; lia|]. split; [discriminate|]. split; [repeat constructor|reflexivity]. Qed.

Ltac in_cases := repeat match goal with H : In _ _ |- _ => cbn in H | H : _ \/ _ |- _ => destruct H | H : False |- _ => destruct H end; subst; cbn; tauto.
Ltac within_cases :=
  intros j Hj; do 3 (destruct j as [|j];
    [intros i Hi; cbv zeta; vm_compute in Hi; do 2 (destruct i as [|i]; [vm_compute; repeat split; intros; try discriminate; try lia|]); lia|]);
  vm_compute in Hj; lia.

Lemma tr_linked : linked (stage tr_world) (mkplace tr_P tr_in) tr_net tr_seq tr_homes (mkplace tr_Y (balanced [1; 2] [1; 2])).
Proof.
  eapply linked_cons.
  { apply (stage_feature tr_world tr_P tr_in tr_conv 1 1 2 1 [4] [4] true no_t no_g); try reflexivity; try lia; try (apply Z.divide_1_l).
    - split; [repeat constructor; cbn; lia|]. split; [intros v Hv; in_cases|]. split; [apply tr_P_ok|]. split; [repeat constructor; cbn; lia|].
      split; [reflexivity|]. split; [reflexivity|]. repeat split; repeat constructor; lia.
    - split; [reflexivity|]. intros [|j] Hj; cbn in Hj; [|lia]. cbn. split; [lia|]. unfold SpecHalo.window_fits. intros. lia.
    - repeat constructor.
    - intros _. within_cases. }
  eapply linked_cons.
  { apply (stage_max_pool tr_world tr_P (balanced [1; 2; 4] [1; 1; 2]) tr_pool 1 2 [4] [2]); try reflexivity; try lia.
    - split; [repeat constructor; cbn; lia|]. split; [intros v Hv; in_cases|]. split; [apply tr_P_ok|]. split; [repeat constructor; cbn; lia|].
      split; [reflexivity|]. split; [reflexivity|]. repeat split; repeat constructor; lia.
    - split; [reflexivity|]. intros [|j] Hj; cbn in Hj; [|lia]. cbn. split; [lia|]. unfold SpecHalo.window_fits. intros. lia.
    - repeat constructor.
    - within_cases.
    - apply first_max_local. repeat split; repeat constructor; lia. }
  eapply linked_cons.
  { apply (stage_repartition tr_world tr_P tr_M (balanced [1; 2; 2] [1; 1; 2])).
    split; [repeat constructor; cbn; lia|]. split; [intros v Hv; in_cases|]. split; [apply tr_P_ok|]. split; [apply tr_M_ok|].
    split; [reflexivity|]. split; [reflexivity|]. split; [repeat constructor; cbn; lia|]. split; [reflexivity|].
    repeat constructor; cbn; lia. }
  eapply linked_cons.
  { apply (stage_reshape tr_world tr_M tr_F [1] [2; 2] [4]); try reflexivity; try apply tr_M_ok; try apply tr_F_ok; repeat constructor; lia. }
  eapply linked_cons.
  { apply (stage_linear tr_world tr_F tr_Y tr_W 1 2 true false false no_t no_t no_g no_g 1 4 2); try lia.
    - split; [apply tr_F_ok|]. split; [apply tr_Y_ok|]. split; [apply tr_W_ok|]. do 5 (split; [reflexivity|]). split; discriminate.
    - intros v Hv. in_cases. }
  eapply linked_cons; [apply stage_activation|]. apply linked_nil.
Qed.

(** The parameters with momentum buffers; the workers without a home have tensors of
    other values. *)
Definition tr_cw : tensor Zring := @mkt Zring [2; 1; 3] (fun i => row_major [2; 1; 3] i - 2).
Definition tr_cb : tensor Zring := @mkt Zring [2] (fun i => 1 - nth 0 i 0).
Definition tr_lw : tensor Zring := @mkt Zring [2; 4] (fun i => (3 * nth 0 i 0 + nth 1 i 0) mod 3 - 1).
Definition tr_lb : tensor Zring := @mkt Zring [2] (fun i => nth 0 i 0).
Definition zero_like (t : tensor Zring) : tensor Zring := @mkt Zring (tshape t) (fun _ => 0).
Definition with_state (t : tensor Zring) : list (tensor Zring) := [t; zero_like t].
Definition tr_Ths : list (list (@slots Zring)) := [[with_state tr_cw; with_state tr_cb]; []; []; []; [with_state tr_lw; with_state tr_lb]; []].
Definition junk : tensor Zring := @mkt Zring [0] (fun _ => 77).
Definition tr_ths : list (Z -> list (@slots Zring)) :=
  [fun v => if v =? 0 then [with_state tr_cw; with_state tr_cb] else [with_state junk; with_state junk];
   fun _ => []; fun _ => []; fun _ => [];
   fun v => match index_in tr_W v with
            | Some [j; i] => [map (block (balanced [2; 4] [2; 1]) [j; i]) (with_state tr_lw); map (block (balanced [2] [2]) [j]) (with_state tr_lb)]
            | _ => [with_state junk; with_state junk]
            end;
   fun _ => []].

Definition tr_arith : arith Zring := mkarith Zring Z.div (fun a : Z => a) (Z.eqb 0).
Definition tr_X (k : Z) : tensor Zring := @mkt Zring [1; 1; 4] (fun i => nth 2 i 0 - k).
Definition tr_T (k : Z) : tensor Zring := @mkt Zring [1; 2] (fun i => k + nth 1 i 0).

Lemma state_shapes (t : tensor Zring) s : tshape t = s -> Forall (fun T => tshape T = s) (with_state t).
Proof. intros E. repeat constructor; exact E. Qed.
Lemma state_whole (t : tensor Zring) s : tshape t = s -> Forall2 (fun u T => teq u (block (whole s) (zeros s) T)) (with_state t) (with_state t).
Proof. intros E. repeat constructor; try (apply teq_sym, whole_all; exact E). Qed.
Lemma state_blocks L idx (t : tensor Zring) : Forall2 (fun u T => teq u (block L idx T)) (map (block L idx) (with_state t)) (with_state t).
Proof. repeat constructor; try apply teq_refl. Qed.
Lemma tr_W_workers j i v : worker_at tr_W [j; i] v -> index_in tr_W v = Some [j; i].
Proof. apply index_in_spec. apply tr_W_ok. Qed.

Lemma tr_held : all_held tr_world tr_homes tr_Ths tr_ths.
Proof.
  assert (E : params_held (R := Zring) tr_world [] [] (fun _ => [])).
  { split; [reflexivity|]. split; [intros k Hk; cbn in Hk; lia|]. intros v _. constructor. }
  constructor; [|do 3 (constructor; [exact E|]); constructor; [|constructor; [exact E|constructor]]].
  - split; [reflexivity|]. split.
    + intros k Hk. destruct k as [|[|k]]; [| |cbn in Hk; lia]; (split; [discriminate|]); (split; [apply state_shapes; reflexivity|]);
        intros v idx Hv [-> ->].
      * apply (state_whole tr_cw [2; 1; 3] eq_refl).
      * apply (state_whole tr_cb [2] eq_refl).
    + intros v Hv. cbn beta. destruct (v =? 0); repeat constructor; cbn; try lia; discriminate.
  - split; [reflexivity|]. split.
    + intros k Hk. destruct k as [|[|k]]; [| |cbn in Hk; lia]; (split; [discriminate|]); (split; [apply state_shapes; reflexivity|]).
      * intros v idx Hv H. change (worker_at tr_W idx v) in H. assert (Hl : length idx = 2%nat) by (destruct H as [H _]; now apply valid_index_length in H).
        destruct idx as [|j [|i [|]]]; try discriminate. cbn beta. rewrite (tr_W_workers j i v H). apply state_blocks.
      * intros v idx Hv H. destruct H as (j & -> & H). cbn beta. rewrite (tr_W_workers j 0 v H). apply state_blocks.
    + intros v Hv. repeat (destruct Hv as [<-|Hv]; [vm_compute; repeat constructor; discriminate|]). destruct Hv.
Qed.

Definition tr_sq (a b : Zring) : Zring := (a - b) * (a - b).
Definition tr_dsq (a b : Zring) : Zring := 2 * (a - b).
Definition tr_opt : @optimizer Zring := sgd_momentum (1 : car Zring) (1 : car Zring).
Definition tr_data : list (tensor Zring * tensor Zring) := [(tr_X 0, tr_T 0); (tr_X 1, tr_T 1)].
Definition tr_out : layout := balanced [1; 2] [1; 2].
Definition tr_given : list ((Z -> tensor Zring) * (Z -> tensor Zring)) :=
  map (fun D => (give tr_P tr_in (fst D), give tr_Y tr_out (snd D))) tr_data.
Definition tr_train := seq_training tr_arith tr_sq tr_dsq RSum tr_opt tr_seq tr_Ths.

Lemma tr_data_held : Forall2 (fun D d => held tr_world (mkplace tr_P tr_in) (fst D) (fst d) /\ holds_blocks tr_Y tr_out (snd D) (snd d)) tr_data tr_given.
Proof.
  assert (H : forall k, held tr_world (mkplace tr_P tr_in) (tr_X k) (give tr_P tr_in (tr_X k)) /\
                        holds_blocks tr_Y tr_out (tr_T k) (give tr_Y tr_out (tr_T k))).
  { intros k. split; [split|].
    - apply give_blocks; [apply tr_P_ok|reflexivity].
    - intros v Hv Hn. destruct Hv as [<-|[<-|[<-|[]]]]; try (exfalso; apply Hn; cbn; tauto).
      split; [vm_compute; repeat constructor; discriminate|discriminate].
    - apply give_blocks; [apply tr_Y_ok|reflexivity]. }
  constructor; [apply H|]. constructor; [apply H|]. constructor.
Qed.

(** The training on two samples; the losses of the sequential training, and what the
    first sample does to the bias of the linear layer, with momentum, and to the weight
    of the convolution. *)
Definition values_of (t : tensor Zring) : list Z := map (tat t) (indices (tshape t)).
Example C63_example :
  every_training tr_world tr_arith tr_sq tr_dsq tr_Y true RSum no_t no_g tr_opt tr_net tr_ths tr_given (fun ths' losses =>
    let '(Ths', ls) := tr_train tr_data in
    all_held tr_world tr_homes Ths' ths' /\ Forall2 (loss_held tr_Y) ls losses) /\
  snd (tr_train tr_data) = [3626; 100783445646326546972443378397666] /\
  let first := fst (tr_train (firstn 1 tr_data)) in
  map values_of (nth 1 (nth 4 first []) []) = [[1372; 841]; [-1372; -840]] /\
  map values_of (nth 0 (nth 0 first []) []) = [[-2; -1; -2212; -2211; -2210; -2209]; [0; 0; 2212; 2212; 2212; 2212]].
Proof.
  split.
  - apply (C63_training Zring tr_world tr_arith tr_sq tr_dsq tr_Y tr_out true RSum no_t no_g tr_opt (mkplace tr_P tr_in) tr_net tr_seq tr_homes tr_Ths tr_ths tr_data tr_given).
    + exact tr_linked.
    + apply tr_Y_ok.
    + repeat constructor; cbn; lia.
    + reflexivity.
    + reflexivity.
    + discriminate.
    + intros _ a. cbn. apply Z.div_1_r.
    + exact tr_held.
    + exact tr_data_held.
  - cbv zeta. split; [vm_compute; reflexivity|]. split; vm_compute; reflexivity.
Qed.

(** A network of two workers: batch normalisation of two channels of four elements, of
    which every worker has two, then linear interpolation to six elements and the
    square; the sum of the squared errors and SGD with momentum.  Worker 1 is the first
    of the partition and has gamma and beta. *)
Definition nu_world : list Z := [0; 1].
Definition nu_P : part := mkpart 0 [1; 0] [1; 1; 2].
Definition nu_in : layout := balanced [1; 2; 4] [1; 1; 2].
Definition nu_out : layout := balanced [1; 2; 6] [1; 1; 2].
Definition nu_a : upsample_args exact_types := mkupsample_args exact_types (Some [1; 2; 6]) None (Some false).
Definition nu_eps : Qring := Q2Qc (1 # 4).
Definition nu_act (a : Qring) : Qring := (a * a)%Qc.
Definition nu_slope (a : Qring) : Qring := (Q2Qc 2 * a)%Qc.
Definition nu_net : list (@layer Qring) :=
  [YBatchNorm Qarith nu_P 2 nu_eps None true true no_t no_g; YUpsample (R := Qring) nu_P (fun w => w) nu_a; YActivation nu_act nu_slope].
Definition nu_seq : list (@seq_layer Qring) :=
  [seq_batchnorm Qarith nu_eps true; seq_upsample (R := Qring) (asked nu_a) (fun w => w) [1; 2; 6]; seq_activation nu_act nu_slope].
Definition nu_homes : list (list home) := [norm_homes nu_P 2 true; []; []].

Lemma nu_P_ok : part_ok nu_P. Proof. split; [repeat constructor; cbn; lia|]. split; [discriminate|]. split; [repeat constructor|reflexivity]. Qed.

Lemma nu_upsamples : upsamples (R := Qring) (fun w => w) nu_world nu_P nu_a [1; 2; 4] [1; 2; 6].
Proof.
  assert (Hs : forall j, (2 <= j < length [1; 2; 4])%nat -> sensible (asked nu_a) (nth j [1; 2; 4] 0) (nth j [1; 2; 6] 0)).
  { intros j Hj. assert (j = 2%nat) as -> by (cbn in Hj; lia). vm_compute. auto. }
  split; [reflexivity|]. split; [repeat constructor; cbn; lia|]. split; [intros v Hv; in_cases|]. split; [apply nu_P_ok|].
  split; [reflexivity|]. split; [cbn; lia|]. split; [repeat constructor|]. do 3 (split; [reflexivity|]). split; [exact Hs|].
  split; [intros j Hj; do 3 (destruct j as [|j]; [cbn; lia|]); cbn in Hj; lia|]. split; [right; split; reflexivity|].
  apply divisible_neighbours; [repeat constructor|reflexivity|exact Hs|].
  intros j Hj. assert (j = 2%nat) as -> by (cbn in Hj; lia). cbn. split; [exists 2; reflexivity|]. split; [exists 3; reflexivity|exact I].
Qed.

Lemma nu_linked : linked (stage nu_world) (mkplace nu_P nu_in) nu_net nu_seq nu_homes (mkplace nu_P nu_out).
Proof.
  eapply linked_cons.
  { apply stage_batchnorm; [exact Qlinear|apply nu_P_ok|cbn; lia|lia| |intros v; split; intros Hv; in_cases].
    split; [repeat constructor; cbn; lia|]. split; reflexivity. }
  eapply linked_cons; [apply stage_upsample, nu_upsamples|].
  eapply linked_cons; [apply stage_activation|]. apply linked_nil.
Qed.

Definition nu_state (t : tensor Qring) : list (tensor Qring) := [t; @mkt Qring (tshape t) (fun _ => Q2Qc 0)].
Definition nu_gamma : tensor Qring := @mkt Qring [1; 2; 1] (fun i => Q2Qc (1 + nth 1 i 0 # 1)).
Definition nu_beta : tensor Qring := @mkt Qring [1; 2; 1] (fun i => Q2Qc (nth 1 i 0 # 2)).
Definition nu_Ths : list (list (@slots Qring)) := [[nu_state nu_gamma; nu_state nu_beta]; []; []].
Definition nu_junk : tensor Qring := @mkt Qring [0] (fun _ => Q2Qc 77).
Definition nu_ths : list (Z -> list (@slots Qring)) :=
  [fun v => if v =? 1 then [nu_state nu_gamma; nu_state nu_beta] else [nu_state nu_junk; nu_state nu_junk]; fun _ => []; fun _ => []].

Lemma nu_held : all_held nu_world nu_homes nu_Ths nu_ths.
Proof.
  assert (E : params_held (R := Qring) nu_world [] [] (fun _ => [])).
  { split; [reflexivity|]. split; [intros k Hk; cbn in Hk; lia|]. intros v _. constructor. }
  constructor; [|constructor; [exact E|constructor; [exact E|constructor]]].
  assert (W : forall (t : tensor Qring), tshape t = [1; 2; 1] ->
            Forall2 (fun u T => teq u (block (norm_layout nu_P 2) [0; 0; 0] T)) (nu_state t) (nu_state t)).
  { intros t Et. change (norm_layout nu_P 2) with (whole [1; 2; 1]). change [0; 0; 0] with (zeros [1; 2; 1]).
    repeat constructor; try (apply teq_sym, whole_all; exact Et). }
  split; [reflexivity|]. split.
  - intros k Hk. destruct k as [|[|k]]; [| |cbn in Hk; lia]; (split; [discriminate|]); (split; [repeat constructor|]);
      intros v idx Hv [Hw [k ->]]; cbn [norm_homes nth h_layout nu_ths nu_Ths nu_homes] in *.
    all: assert (k = 0) as -> by (destruct Hw as [Hi _]; cbn in Hi; apply valid_index_cons_inv in Hi as (? & ? & E1 & _ & Hi);
           injection E1 as <- <-; apply valid_index_cons_inv in Hi as (? & ? & E2 & H2 & _); injection E2 as <- _; lia);
      assert (v = 1) as -> by (destruct Hw as [_ Hv']; cbn in Hv'; congruence); now apply W.
  - intros v Hv. cbn beta. destruct (v =? 1); repeat constructor; cbn; try lia; discriminate.
Qed.

Definition nu_X (k : Z) : tensor Qring := @mkt Qring [1; 2; 4] (fun i => Q2Qc (k * (nth 2 i 0) * (1 + nth 1 i 0) + nth 2 i 0 mod 2 # 1)).
Definition nu_T (k : Z) : tensor Qring := @mkt Qring [1; 2; 6] (fun i => Q2Qc (k + nth 1 i 0 # 1)).
Definition nu_sq (a b : Qring) : Qring := ((a - b) * (a - b))%Qc.
Definition nu_dsq (a b : Qring) : Qring := (Q2Qc 2 * (a - b))%Qc.
Definition nu_opt : @optimizer Qring := sgd_momentum (Q2Qc (1 # 2) : car Qring) (Q2Qc (1 # 3) : car Qring).
Definition nu_data : list (tensor Qring * tensor Qring) := [(nu_X 1, nu_T 1); (nu_X 2, nu_T 0)].
Definition nu_given : list ((Z -> tensor Qring) * (Z -> tensor Qring)) :=
  map (fun D => (give nu_P nu_in (fst D), give nu_P nu_out (snd D))) nu_data.
Definition nu_train := seq_training Qarith nu_sq nu_dsq RMean nu_opt nu_seq nu_Ths.

Lemma nu_data_held : Forall2 (fun D d => held nu_world (mkplace nu_P nu_in) (fst D) (fst d) /\ holds_blocks nu_P nu_out (snd D) (snd d)) nu_data nu_given.
Proof.
  assert (H : forall k j, held nu_world (mkplace nu_P nu_in) (nu_X k) (give nu_P nu_in (nu_X k)) /\ holds_blocks nu_P nu_out (nu_T j) (give nu_P nu_out (nu_T j))).
  { intros k j. split; [split|].
    - apply give_blocks; [apply nu_P_ok|reflexivity].
    - intros v Hv Hn. destruct Hv as [<-|[<-|[]]]; exfalso; apply Hn; cbn; tauto.
    - apply give_blocks; [apply nu_P_ok|reflexivity]. }
  constructor; [apply H|]. constructor; [apply H|]. constructor.
Qed.

(** In the arithmetic of C34's example, whose square root is the identity. *)
Example C63_example_norm :
  every_training nu_world Qarith nu_sq nu_dsq nu_P false RMean no_t no_g nu_opt nu_net nu_ths nu_given (fun ths' losses =>
    let '(Ths', ls) := nu_train nu_data in
    all_held nu_world nu_homes Ths' ths' /\ Forall2 (loss_held nu_P) ls losses) /\
  map this (snd (nu_train nu_data)) =
    [25459760435 # 17989317216; 33069467597128862803608591177887401547721763 # 124261056389362623382073795123950089845760000]%Q /\
  let first := fst (nu_train (firstn 1 nu_data)) in
  map (fun t => snd (show t)) (nth 0 (nth 0 first []) []) = [[21811 # 19683; 28796909 # 13880646]; [-4256 # 19683; -1035617 # 6940323]]%Q /\
  map (fun t => snd (show t)) (nth 1 (nth 0 first []) []) = [[0; 7307 # 12168]; [0; -1223 # 6084]]%Q.
Proof.
  split.
  - apply (C63_training Qring nu_world Qarith nu_sq nu_dsq nu_P nu_out false RMean no_t no_g nu_opt (mkplace nu_P nu_in) nu_net nu_seq nu_homes nu_Ths nu_ths nu_data nu_given).
    + exact nu_linked.
    + apply nu_P_ok.
    + repeat constructor; cbn; lia.
    + reflexivity.
    + reflexivity.
    + discriminate.
    + discriminate.
    + exact nu_held.
    + exact nu_data_held.
  - cbv zeta. split; [vm_compute; reflexivity|]. split; vm_compute; reflexivity.
Qed.

(** For the second sample and the gradients -1, 0, 1, 2 of the outputs of both channels. *)
Definition nu_dY : tensor Qring := @mkt Qring [1; 2; 4] (fun i => Q2Qc (nth 2 i 0 - 1 # 1)).
Example C63_batchnorm_example :
  bn_gradients Qarith nu_eps true true true fresh (at_channel nu_gamma) (at_channel nu_beta) (nu_X 2) nu_dY
    (q_back (seq_batchnorm Qarith nu_eps true) [nu_gamma; nu_beta] (nu_X 2) nu_dY)
    (at_channel (nth 0 (q_grads (seq_batchnorm Qarith nu_eps true) [nu_gamma; nu_beta] (nu_X 2) nu_dY) no_tensor))
    (at_channel (nth 1 (q_grads (seq_batchnorm Qarith nu_eps true) [nu_gamma; nu_beta] (nu_X 2) nu_dY) no_tensor)) /\
  map (fun k => this (at_channel (nth 1 (q_grads (seq_batchnorm Qarith nu_eps true) [nu_gamma; nu_beta] (nu_X 2) nu_dY) no_tensor) k)) [0; 1] = [2; 2]%Q.
Proof.
  split; [|vm_compute; reflexivity].
  exact (C63_batchnorm_derivative Qring Qarith nu_eps true [nu_gamma; nu_beta] (nu_X 2) nu_dY Qlinear ltac:(cbn; lia) eq_refl).
Qed.

Print Assumptions C63_training.
Print Assumptions C63_batchnorm_derivative.
