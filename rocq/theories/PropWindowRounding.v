(** Rounding errors of feature-distributed convolutions and average pools: C85. *)

From Coq Require Import Reals Lra Sorting.Permutation.
From Flocq Require Import Core Binary Bits BinarySingleNaN.
From Verif Require Import Prelude SpecIndex SpecLayout SpecPartition SpecHalo SpecSum ModelSlicing ModelDecomposition
  ModelPartition ProofPartition Ring Tensor ModelCollectives PropCollectives Blocks ModelUtilities P2P Rounds Schedule ModelRepartition PropRepartition
  ModelHaloMixin ProofHaloMixin PropHaloMixin ModelHaloExchange PropHaloExchange ModelFeatureLayer SpecFeature PropFeatureLayer PropFeatureConv PropFeatureCommon
  ModelConv ModelGradients PropLinear PropConv PropConvGrad ModelFeatureGrad PropFeatureGrad ModelTorch SpecWindow PropWindow ModelReduce PropReduce SpecRounding PropRounding SpecConvSum ModelConvReduce
  PropConvReduce PropConvRounding PropLossRounding ModelHaloReduce PropHaloReduce PropFeatureReduce PropConvGradRounding PropFeatureRounding PropWindowReduce.
Local Open Scope Z_scope.

(** The distributed layer, and the sequential layer on any worker. *)
Definition C85_convolutions_statement : Prop :=
  forall (F : format) (M : machine (words F)) torch (world : list Z) (P : part) (L : layout) (w : window)
    (cin cout groups : Z) (use_bias : bool) (dt : Z -> Z) (rg : Z -> bool) (weight bias : Z -> tensor (words F)) (X : tensor (words F))
    (b : Z) (xs ys : list Z) (x : Z -> tensor (words F)),
    let root := hd 0 (p_ranks P) in
    let bo := if use_bias then Some (bias root) else None in
    ieee F M -> torch_windows_by M w groups torch ->
    feature_given world P L w -> nth 1 (p_shape P) 0 = 1 ->
    conv_parameters P w cin cout groups use_bias weight bias ->
    conv_arguments w groups cin cout X (weight root) bo b xs ys ->
    holds_blocks P L X x -> ((1 < length (p_ranks P))%nat -> within L w (b :: cin :: ys)) ->
    let shape v := tshape (x v) in
    let arg := halo_argument P w rzero shape x in
    let plan := halo_plan P w shape in
    let layer := history_rounds_by P (fun v => tshape (arg v)) (fun v => u_recv (plan v)) (fun v => u_send (plan v)) (m_add M) in
    let near exchanged := exists Y, conv_near F w groups cin cout X (weight root) bo b ys Y /\
      blocks_delivered world P x Y (conv_forward_by P w use_bias dt rg torch weight bias shape x exchanged) in
    (length (p_ranks P) = 1%nat -> forall exchanged, near exchanged) /\
    ((1 < length (p_ranks P))%nat ->
       forall pre init eager g, same_calls P arg pre -> ends world (layer (pre ++ [HForward arg])) init eager g -> near (halo_result g)) /\
    (forall v, exists Y, torch v w (weight root) bo X = Ok Y /\ conv_near F w groups cin cout X (weight root) bo b ys Y).

(** [r] is near to the average of [l]. *)
Definition average_near (F : format) (l : list (term (words F))) (n : Z) (r : words F) : Prop :=
  (finite F r -> Forall (finite_term F) l /\ (Rabs (number F r - sum_number F l / IZR n) <= quotient_error F l n)%real) /\
  (Forall (finite_term F) l -> (sum_abs F l + sum_error F l < bpow radix2 (f_max F))%real -> finite F r).

Definition C85_pools_statement : Prop :=
  forall (F : format) (M : machine (words F)) (divide : words F -> Z -> words F) (torch : Z -> tensor (words F) -> result (tensor (words F)))
    (world : list Z) (P : part) (L : layout) (w : window) (X : tensor (words F)) (b c : Z) (xs ys : list Z) (x : Z -> tensor (words F)),
    ieee F M -> ieee_division F divide -> zprod (w_kernel w) < 2 ^ f_prec F ->
    (forall v e b c xs ys, has_output (bare w) e b c xs ys -> exists y, torch v e = Ok y /\ average_by M divide (bare w) e b c ys y) ->
    feature_given world P L w -> has_output w X b c xs ys -> holds_blocks P L X x -> within L w (b :: c :: ys) ->
    let shape v := tshape (x v) in
    let arg := halo_argument P w rzero shape x in
    let plan := halo_plan P w shape in
    let layer := history_rounds_by P (fun v => tshape (arg v)) (fun v => u_recv (plan v)) (fun v => u_send (plan v)) (m_add M) in
    forall pre init eager g, same_calls P arg pre -> ends world (layer (pre ++ [HForward arg])) init eager g ->
    exists Y, tshape Y = b :: c :: ys /\
      (forall b' c' o, valid_index (tshape Y) (b' :: c' :: o) ->
         average_near F (map (fun t => Num (value_at X rzero (b' :: c' :: window_at w o t))) (indices (w_kernel w))) (zprod (w_kernel w))
           (tat Y (b' :: c' :: o))) /\
      blocks_delivered world P x Y (feature_output_by P w torch shape x (halo_result g)).

Lemma C85_convolutions_proof : C85_convolutions_statement.
Proof.
  intros F M torch world P L w cin cout groups use_bias dt rg weight bias X b xs ys x root bo HI HT HG H1 HW HA HB Hin shape arg plan layer near.
  destruct (C84_convolutions (words F) M torch world P L w cin cout groups use_bias dt rg weight bias X b xs ys x HT HG H1 HW HA HB Hin) as [One Many].
  split; [|split].
  - intros E e. destruct (One E e) as (Y & Y1 & Y2). exists Y. split; [now apply (by_near F M)|exact Y2].
  - intros Hm pre init eager g Hp Hg. destruct (Many Hm pre init eager g Hp Hg) as (Y & Y1 & Y2). exists Y. split; [now apply (by_near F M)|exact Y2].
  - intros v. destruct (HT v w (or_introl eq_refl) cin cout X (weight root) bo b xs ys HA) as (Y & Y1 & Y2).
    exists Y. split; [exact Y1|now apply (by_near F M)].
Qed.

Lemma C85_pools_proof : C85_pools_statement.
Proof.
  intros F M divide torch world P L w X b c xs ys x HI HD Hn HT HG HO HB Hin shape arg plan layer pre init eager g Hp Hg.
  assert (Hk : 0 < zprod (w_kernel w)).
  { apply zprod_pos. destruct HG as (_ & _ & _ & _ & _ & HG). assert (exists n, window_ok n w) as [n Hw] by (decompose [and] HG; eauto).
    unfold pos_shape. apply Hw. }
  destruct (C84_pools (words F) M divide torch world P L w X b c xs ys x HT HG HO HB Hin pre init eager g Hp Hg) as (Y & (SY & VY) & DY).
  exists Y. split; [exact SY|]. split; [|exact DY]. intros b' c' o Ho. destruct (VY b' c' o Ho) as (s & Es & ->).
  exact (quotient_near F M divide _ s _ HI HD (conj Hk Hn) Es).
Qed.

Theorem C85_convolutions : C85_convolutions_statement.
Proof. exact C85_convolutions_proof. Qed.
Theorem C85_pools : C85_pools_statement.
Proof. exact C85_pools_proof. Qed.

(** * Examples: C30's convolution in half precision, and an average pool *)
Definition wh_x (v : Z) : tensor (words half) := hmap (wr_x v).
Definition wh_shape (v : Z) : list Z := tshape (wh_x v).
Definition wh_arg := halo_argument cv_P cv_w (rzero (c := words half)) wh_shape wh_x.
Definition wh_plan := halo_plan cv_P cv_w wh_shape.
Definition wh_layer := history_rounds_by cv_P (fun v => tshape (wh_arg v)) (fun v => u_recv (wh_plan v)) (fun v => u_send (wh_plan v)) (m_add ex62_M).
Definition wh_g : @gst (@hst (words half)) (tensor (words half)) :=
  played cv_world (wh_layer ([] ++ [HForward wh_arg])) ex71_start (fun _ _ _ _ => false) (fun _ => [1; 0; 3; 2]%nat) 500.
Definition wh_out := conv_forward_by cv_P cv_w true gx_dt gx_rg (alternate_window ex62_M 1) fh_weight fh_bias wh_shape wh_x (halo_result wh_g).
Definition wh_whole (v : Z) := val (alternate_window ex62_M 1 v cv_w (fh_weight 10) (Some (fh_bias 10)) (hmap wr_G)).
Definition wh_torch : Z -> tensor (words half) -> result (tensor (words half)) := alternate_pool ex62_M hl_divide cv_w.
Definition wh_pool := feature_output_by cv_P cv_w wh_torch wh_shape wh_x (halo_result wh_g).

Lemma wh_given : feature_given cv_world cv_P cv_L cv_w /\ holds_blocks cv_P cv_L (hmap wr_G) wh_x /\ within cv_L cv_w [1; 2; 10] /\
  ends cv_world (wh_layer ([] ++ [HForward wh_arg])) ex71_start (fun _ _ _ _ => false) wh_g.
Proof.
  destruct fr_given as (_ & _ & A3 & _ & _ & _ & _ & A8 & _). split; [exact A3|].
  split; [split; [apply wr_blocks|]; intros idx v Hv; apply hmap_block; exact (proj2 wr_blocks idx v Hv)|].
  split; [exact A8|]. apply played_ends; vm_compute; reflexivity.
Qed.

(** Entries [0; 0; 2] differ in the last bit between workers that add in different
    orders; the second channel is too large for the format. *)
Example C85_convolutions_example :
  ieee half ex62_M /\ torch_windows_by ex62_M cv_w 1 (alternate_window ex62_M 1) /\ feature_given cv_world cv_P cv_L cv_w /\ nth 1 (p_shape cv_P) 0 = 1 /\
  conv_parameters cv_P cv_w 2 2 1 true fh_weight fh_bias /\
  conv_arguments cv_w 1 2 2 (hmap wr_G) (fh_weight (hd 0 (p_ranks cv_P))) (Some (fh_bias (hd 0 (p_ranks cv_P)))) 1 [10] [10] /\
  holds_blocks cv_P cv_L (hmap wr_G) wh_x /\ within cv_L cv_w [1; 2; 10] /\ (1 < length (p_ranks cv_P))%nat /\
  ends cv_world (wh_layer ([] ++ [HForward wh_arg])) ex71_start (fun _ _ _ _ => false) wh_g /\
  map (fun i => hf_bits (tat (val (wh_out 10)) i)) (indices [1; 2; 3]) = [30597; 30711; 30826; 31744; 31744; 31744] /\
  map (fun i => hf_bits (tat (wh_whole 11) i)) [[0; 0; 0]; [0; 0; 1]; [0; 0; 2]; [0; 1; 0]] = [30597; 30711; 30825; 31744] /\
  finite half (tat (val (wh_out 10)) [0; 0; 2]) /\ ~ finite half (tat (val (wh_out 10)) [0; 1; 2]).
Proof.
  destruct C75_example as (E1 & _). destruct fr_given as (_ & _ & A3 & A4 & A5 & _). destruct wh_given as (_ & B1 & B2 & B3).
  split; [exact E1|]. split; [apply alternate_window_ok, A3|]. split; [exact A3|]. split; [exact A4|]. split; [exact A5|].
  split. { destruct wr_arguments as (C1 & C2 & C3 & C4 & C5 & C6 & C7 & C8 & C9 & C10 & C11 & C12 & C13). repeat (split; [assumption|]). assumption. }
  split; [exact B1|]. split; [exact B2|]. split; [cbn; lia|]. split; [exact B3|].
  do 3 (split; [vm_compute; reflexivity|]). vm_compute; discriminate.
Qed.

Example C85_pools_example :
  ieee half ex62_M /\ ieee_division half hl_divide /\ zprod (w_kernel cv_w) < 2 ^ f_prec half /\
  (forall v e b c xs ys, has_output (bare cv_w) e b c xs ys -> exists y, wh_torch v e = Ok y /\ average_by ex62_M hl_divide (bare cv_w) e b c ys y) /\
  feature_given cv_world cv_P cv_L cv_w /\ has_output cv_w (hmap wr_G) 1 2 [10] [10] /\ holds_blocks cv_P cv_L (hmap wr_G) wh_x /\ within cv_L cv_w [1; 2; 10] /\
  ends cv_world (wh_layer ([] ++ [HForward wh_arg])) ex71_start (fun _ _ _ _ => false) wh_g /\
  map (fun i => hf_bits (tat (val (wh_pool 11)) i)) (indices [1; 2; 3]) = [26259; 26896; 27451; 29120; 29235; 29373] /\
  finite half (tat (val (wh_pool 11)) [0; 1; 2]).
Proof.
  destruct C75_example as (E1 & _). destruct C81_example as (_ & E2 & _). destruct wh_given as (A & B1 & B2 & B3).
  split; [exact E1|]. split; [exact E2|]. split; [reflexivity|]. split; [apply (alternate_pool_ok ex62_M hl_divide cv_w); apply A|].
  split; [exact A|]. split. { destruct C84_pools_example as (_ & _ & (C1 & C2) & _). split; [exact C1|exact C2]. }
  split; [exact B1|]. split; [exact B2|]. split; [exact B3|]. split; vm_compute; reflexivity.
Qed.

Print Assumptions C85_convolutions.
Print Assumptions C85_pools.
