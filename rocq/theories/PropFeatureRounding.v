(** C79: rounding errors of the gradients of convolutions over distributed features. *)

From Coq Require Import Reals Sorting.Permutation.
From Flocq Require Import Core Binary Bits BinarySingleNaN.
From Verif Require Import Prelude SpecIndex SpecLayout SpecPartition SpecHalo SpecSum ModelSlicing ModelDecomposition
  ModelPartition ProofPartition Ring Tensor ModelCollectives PropCollectives Blocks P2P Rounds Schedule ModelUtilities ModelRepartition PropRepartition
  ModelHaloMixin PropHaloMixin ModelHaloExchange PropHaloExchange ModelFeatureLayer SpecFeature ProofFeatureLayer PropFeatureLayer
  PropFeatureConv PropFeatureCommon ModelConv PropLinear PropConv PropConvGeneral PropFeatureGrad PropConvGrad ModelReduce PropReduce
  SpecRounding PropRounding SpecConvSum ModelConvReduce PropConvReduce PropConvRounding SpecConvGradSum PropConvGradReduce PropConvGradRounding
  ModelHaloReduce PropHaloReduce ModelFeatureReduce PropFeatureReduce.

Section Near.
  Variables (F : format) (red : Z -> list Z -> list (words F) -> list Z -> words F).
  Variables back_x back_w back_b : Z -> bool -> tensor (words F) -> tensor (words F) -> tensor (words F) -> result (tensor (words F)).
  Variables (P : part) (L : layout) (w : window) (cin cout groups : Z) (use_bias : bool) (dt : Z -> Z) (rg : Z -> bool).
  Variables (weight bias : Z -> tensor (words F)) (X dY : tensor (words F)) (b : Z) (xs ys : list Z) (x dy : Z -> tensor (words F)).

  (** The gradients are near to the exact ones of the sequential layer. *)
  Definition feature_gradients_near (exchanged back : Z -> tensor (words F)) : Prop :=
    let root := hd 0 (p_ranks P) in
    (exists dX, conv_input_gradient_near F w groups cin cout (weight root) dY b xs ys dX /\
       forall idx v, worker_at P idx v ->
         exists t, conv_gradient_by back_x P w weight x dy back v = Ok t /\ teq t (block L idx dX)) /\
    (exists dW, conv_weight_gradient_of red back_w P w dt rg weight x exchanged dy root = Ok dW /\
       conv_weight_gradient_near F w groups cin cout X dY b ys dW) /\
    (use_bias = true -> exists db, conv_bias_gradient_of red back_b P w dt rg weight bias x exchanged dy root = Ok db /\
       conv_bias_gradient_near F cout dY b ys db).
End Near.

Definition C79_statement : Prop :=
  forall (F : format) (M : machine (words F)) red back_x back_w back_b (world : list Z) (P : part) (L : layout) (w : window)
    (cin cout groups : Z) (use_bias : bool) (dt : Z -> Z) (rg : Z -> bool) (weight bias : Z -> tensor (words F)) (X dY : tensor (words F))
    (b : Z) (xs ys : list Z) (x dy : Z -> tensor (words F)),
    ieee F M -> adds M red -> torch_conv_back_by M w groups back_x back_w back_b ->
    feature_given world P L w -> nth 1 (p_shape P) 0 = 1 ->
    conv_parameters P w cin cout groups use_bias weight bias ->
    conv_arguments w groups cin cout X (weight (hd 0 (p_ranks P))) None b xs ys ->
    holds_blocks P L X x -> ((1 < length (p_ranks P))%nat -> within L w (b :: cin :: ys)) ->
    tshape dY = b :: cout :: ys -> holds_blocks P (balanced (b :: cout :: ys) (p_shape P)) dY dy ->
    let shape v := tshape (x v) in
    let arg := halo_argument P w rzero shape x in
    let plan := halo_plan P w shape in
    let layer := history_rounds_by P (fun v => tshape (arg v)) (fun v => u_recv (plan v)) (fun v => u_send (plan v)) (m_add M) in
    let near := feature_gradients_near F red back_x back_w back_b P L w cin cout groups use_bias dt rg weight bias X dY b xs ys x dy in
    (length (p_ranks P) = 1%nat -> forall exchanged back, near exchanged back) /\
    ((1 < length (p_ranks P))%nat ->
       forall pre init eager gf, same_calls P arg pre -> ends world (layer (pre ++ [HForward arg])) init eager gf ->
         let back := conv_back_argument_by back_x P w dt rg weight x (halo_result gf) dy in
         forall pre' init' eager' gb,
           same_calls P arg pre' -> ends world (layer (pre' ++ [HBackward back])) init' eager' gb -> near (halo_result gf) (halo_result gb)) /\
    (* so are the sequential layer's, on any worker *)
    (forall v, let W := weight (hd 0 (p_ranks P)) in
      (exists dX, back_x v true W X dY = Ok dX /\ conv_input_gradient_near F w groups cin cout W dY b xs ys dX) /\
      (exists dW, back_w v true W X dY = Ok dW /\ conv_weight_gradient_near F w groups cin cout X dY b ys dW) /\
      (exists db, back_b v true W X dY = Ok db /\ conv_bias_gradient_near F cout dY b ys db)).

(** ** Proof *)

Lemma C79_proof : C79_statement.
Proof.
  intros F M red back_x back_w back_b world P L w cin cout groups use_bias dt rg weight bias X dY b xs ys x dy HI HM HT HG H1 HW HA HB Hin ED HD
    shape arg plan layer near.
  destruct (C78_feature_gradients (words F) M red back_x back_w back_b world P L w cin cout groups use_bias dt rg weight bias X dY b xs ys x dy
    HM HT HG H1 HW HA HB Hin ED HD) as [One Many].
  assert (N : forall e k, feature_gradients_by M red back_x back_w back_b P L w cin cout groups use_bias dt rg weight bias X dY b xs ys x dy e k -> near e k).
  { intros e k ((dX & X1 & X2) & (dW & W1 & W2) & B & _). split; [|split].
    - exists dX. split; [now apply (input_near F M)|exact X2].
    - exists dW. split; [exact W1|now apply (weight_near F M)].
    - intros Hu. destruct (B Hu) as (db & B1 & B2). exists db. split; [exact B1|now apply (bias_near F M)]. }
  split; [intros E1 e k; apply N; now apply One|]. split.
  - intros Hm pre init eager gf Hp Hf back pre' init' eager' gb Hp' Hb. apply N.
    destruct (Many Hm) as (_ & _ & K). destruct (K pre init eager gf Hp Hf) as [_ K']. exact (K' pre' init' eager' gb Hp' Hb).
  - intros v. cbv zeta.
    destruct (HT v true cin cout X _ b xs ys dY HA ED) as ((dX' & E1 & F1) & (dW' & E2 & F2) & (db' & E3 & F3)).
    split; [exists dX'; split; [exact E1|now apply (input_near F M)]|].
    split; [exists dW'; split; [exact E2|now apply (weight_near F M)]|].
    exists db'; split; [exact E3|now apply (bias_near F M)].
Qed.

Theorem C79_feature_gradients : C79_statement.
Proof. exact C79_proof. Qed.

(** C53's example in half precision. *)
Definition fh_weight (v : Z) : tensor (words half) := hmap (cv_weight v).
Definition fh_bias (v : Z) : tensor (words half) := hmap (cv_bias v).
Definition fh_x (v : Z) : tensor (words half) := hmap (cv_x v).
Definition fh_dy (v : Z) : tensor (words half) := hmap (fx_dy v).
Definition fh_shape (v : Z) : list Z := tshape (fh_x v).
Definition fh_arg := halo_argument cv_P cv_w (rzero (c := words half)) fh_shape fh_x.
Definition fh_plan := halo_plan cv_P cv_w fh_shape.
Definition fh_layer := history_rounds_by cv_P (fun v => tshape (fh_arg v)) (fun v => u_recv (fh_plan v)) (fun v => u_send (fh_plan v)) (m_add ex62_M).
Definition fh_gf : @gst (@hst (words half)) (tensor (words half)) :=
  played cv_world (fh_layer ([] ++ [HForward fh_arg])) ex71_start (fun _ _ _ _ => false) (fun _ => [1; 0; 3; 2]%nat) 500.
Definition fh_back_x := alternate_back_x ex62_M cv_w 1.
Definition fh_back_w := alternate_back_w ex62_M cv_w 1.
Definition fh_back_b := alternate_back_b ex62_M.
Definition fh_back := conv_back_argument_by fh_back_x cv_P cv_w gx_dt gx_rg fh_weight fh_x (halo_result fh_gf) fh_dy.
Definition fh_gb : @gst (@hst (words half)) (tensor (words half)) :=
  played cv_world (fh_layer ([] ++ [HBackward fh_back])) ex71_start (fun _ _ _ _ => true) (fun _ => [2; 3; 0; 1]%nat) 500.

Example C79_example :
  ieee half ex62_M /\ adds ex62_M (alternate ex62_M) /\ torch_conv_back_by ex62_M cv_w 1 fh_back_x fh_back_w fh_back_b /\
  feature_given cv_world cv_P cv_L cv_w /\ nth 1 (p_shape cv_P) 0 = 1 /\
  conv_parameters cv_P cv_w 2 2 1 true fh_weight fh_bias /\
  conv_arguments cv_w 1 2 2 (hmap cv_G) (fh_weight (hd 0 (p_ranks cv_P))) None 1 [10] [10] /\
  holds_blocks cv_P cv_L (hmap cv_G) fh_x /\ within cv_L cv_w [1; 2; 10] /\
  tshape (hmap fx_dY) = [1; 2; 10] /\ holds_blocks cv_P (balanced [1; 2; 10] (p_shape cv_P)) (hmap fx_dY) fh_dy /\
  ends cv_world (fh_layer ([] ++ [HForward fh_arg])) ex71_start (fun _ _ _ _ => false) fh_gf /\
  ends cv_world (fh_layer ([] ++ [HBackward fh_back])) ex71_start (fun _ _ _ _ => true) fh_gb /\
  let dx := conv_gradient_by fh_back_x cv_P cv_w fh_weight fh_x fh_dy (halo_result fh_gb) in
  let dW := val (conv_weight_gradient_of (alternate ex62_M) fh_back_w cv_P cv_w gx_dt gx_rg fh_weight fh_x (halo_result fh_gf) fh_dy 10) in
  let whole := val (fh_back_w 11 true (fh_weight 10) (hmap cv_G) (hmap fx_dY)) in
  map (fun i => hf_bits (tat (val (dx 11)) i)) (indices [1; 2; 3]) = map (fun z => hf_bits (hz z)) [32; 50; 68; 23; 35; 47] /\
  map (fun i => hf_bits (tat dW i)) (indices [2; 2; 3]) = [24920; 25322; 24752; 26160; 25961; 24752; 25872; 26316; 26031; 27848; 27934; 27663] /\
  map (fun i => hf_bits (tat whole i)) (indices [2; 2; 3]) = [24920; 25322; 24752; 26160; 25961; 24752; 25872; 26316; 26031; 27848; 27933; 27663] /\
  finite half (tat dW [1; 1; 2]).
Proof.
  destruct C75_example as (E1 & E2 & _).
  destruct fr_given as (_ & _ & A3 & A4 & A5 & A6 & A7 & A8 & _). pose proof C52_example as (_ & _ & _ & _ & _ & _ & A10 & _).
  split; [exact E1|]. split; [exact E2|]. split; [apply alternate_back_ok|]. split; [exact A3|]. split; [exact A4|]. split; [exact A5|].
  split. { destruct A6 as (B1 & B2 & B3 & B4 & B5 & B6 & B7 & B8 & B9 & B10 & B11 & B12 & B13). repeat (split; [assumption|]). assumption. }
  split. { destruct A7 as [B1 B2]. split; [exact B1|]. intros idx v Hv. apply hmap_block. exact (B2 idx v Hv). }
  split; [exact A8|]. split; [reflexivity|].
  split. { destruct A10 as [B1 B2]. split; [exact B1|]. intros idx v Hv. apply hmap_block. exact (B2 idx v Hv). }
  split; [apply played_ends; vm_compute; reflexivity|]. split; [apply played_ends; vm_compute; reflexivity|]. cbv zeta.
  do 3 (split; [vm_compute; reflexivity|]). vm_compute; reflexivity.
Qed.

Print Assumptions C79_feature_gradients.
