(** Rounding errors of the gradients of channel-distributed convolutions: C75. *)

From Coq Require Import Reals Lra Sorting.Permutation.
From Flocq Require Import Core Binary Bits BinarySingleNaN.
From Verif Require Import Prelude SpecIndex SpecLayout SpecPartition SpecHalo ModelSlicing ModelDecomposition ModelPartition ProofPartition Ring Tensor
  ModelCollectives PropCollectives Blocks ModelUtilities P2P Rounds ModelRepartition PropRepartition ModelHaloMixin PropHaloMixin ModelHaloExchange
  PropHaloExchange ModelFeatureLayer SpecFeature PropFeatureLayer PropFeatureConv ModelLinear PropLinear ModelConv PropConv PropConvChannel
  PropConvGeneral PropChannelGrad ModelReduce SpecSum PropReduce SpecRounding PropRounding SpecConvSum ModelConvReduce PropConvReduce PropConvRounding
  SpecConvGradSum ModelConvGradReduce PropConvGradReduce.

(** Gradients that are near to the exact ones of the sequential layer. *)
Definition conv_input_gradient_near (F : format) (w : window) (groups cin cout : Z) (W dY : tensor (words F)) (b : Z) (xs ys : list Z)
    (dX : tensor (words F)) : Prop :=
  tshape dX = b :: cin :: xs /\
  forall b' ch q, valid_index (tshape dX) (b' :: ch :: q) ->
    approximates F (input_terms w groups cin cout W dY ys b' ch q) (tat dX (b' :: ch :: q)).
Definition conv_weight_gradient_near (F : format) (w : window) (groups cin cout : Z) (X dY : tensor (words F)) (b : Z) (ys : list Z)
    (dW : tensor (words F)) : Prop :=
  tshape dW = cout :: cin / groups :: w_kernel w /\
  forall c k t, valid_index (tshape dW) (c :: k :: t) -> near_all F (weight_terms w groups cin cout X dY b ys c k t) (tat dW (c :: k :: t)).
Definition conv_bias_gradient_near (F : format) (cout : Z) (dY : tensor (words F)) (b : Z) (ys : list Z) (db : tensor (words F)) : Prop :=
  tshape db = [cout] /\ forall c, 0 <= c < cout -> approximates F (bias_terms dY b ys c) (tat db [c]).

(** Two such gradients differ by at most the sum of both errors. *)
Definition C75_two_results_statement : Prop :=
  forall (F : format) w groups cin cout X W dY b xs ys,
  (forall dX dX', conv_input_gradient_near F w groups cin cout W dY b xs ys dX -> conv_input_gradient_near F w groups cin cout W dY b xs ys dX' ->
   forall b' ch q, valid_index (tshape dX) (b' :: ch :: q) -> finite F (tat dX (b' :: ch :: q)) -> finite F (tat dX' (b' :: ch :: q)) ->
   (Rabs (number F (tat dX (b' :: ch :: q)) - number F (tat dX' (b' :: ch :: q))) <= 2 * sum_error F (input_terms w groups cin cout W dY ys b' ch q))%real) /\
  (forall dW dW', conv_weight_gradient_near F w groups cin cout X dY b ys dW -> conv_weight_gradient_near F w groups cin cout X dY b ys dW' ->
   forall c k t, valid_index (tshape dW) (c :: k :: t) -> finite F (tat dW (c :: k :: t)) -> finite F (tat dW' (c :: k :: t)) ->
   (Rabs (number F (tat dW (c :: k :: t)) - number F (tat dW' (c :: k :: t))) <=
    2 * sum_error F (map snd (weight_terms w groups cin cout X dY b ys c k t)))%real) /\
  (forall db db', conv_bias_gradient_near F cout dY b ys db -> conv_bias_gradient_near F cout dY b ys db' ->
   forall c, 0 <= c < cout -> finite F (tat db [c]) -> finite F (tat db' [c]) ->
   (Rabs (number F (tat db [c]) - number F (tat db' [c])) <= 2 * sum_error F (bias_terms dY b ys c))%real).

(** The distributed layer's gradients, and the sequential layer's on any worker. *)
Definition C75_channel_statement : Prop :=
  forall (F : format) (M : machine (words F)) red torch back_x back_w back_b (Px Py Pw : part) (co ci : Z) (w : window) (groups cin cout : Z)
    (X W : tensor (words F)) (bias : option (tensor (words F))) (b : Z) (xs ys : list Z) (dY : tensor (words F))
    (weight bias_of x dy : Z -> tensor (words F)) dt dt' rg rg',
  ieee F M -> adds M red -> torch_conv_by M w groups torch -> torch_conv_back_by M w groups back_x back_w back_b ->
  distributed_conv Px Py Pw co ci (repeat 1 (length (w_kernel w))) w groups cin cout X W bias b xs ys weight bias_of ->
  holds_blocks Px (balanced (tshape X) (p_shape Px)) X x -> others_pass Px Py Pw x ->
  tshape dY = b :: cout :: ys -> holds_blocks Py (balanced (tshape dY) (p_shape Py)) dY dy -> others_pass Py Px Pw dy ->
  let nk := length (w_kernel w) in
  let dx := channel_backward_by red torch back_x Px Py Pw (has_bias bias) dt dt' rg rg' weight bias_of x dy in
  let dweight := channel_weight_by torch back_w Px Py Pw (has_bias bias) dt dt' rg rg' weight bias_of x dy in
  let dbias := channel_bias_by torch back_b Px Py Pw (has_bias bias) dt dt' rg rg' weight bias_of x dy in
  (exists dX, conv_input_gradient_near F w groups cin cout W dY b xs ys dX /\
     forall idx v, worker_at Px idx v -> exists t, dx v = Ok t /\ teq t (block (balanced (tshape X) (p_shape Px)) idx dX)) /\
  (exists dW, conv_weight_gradient_near F w groups cin cout X dY b ys dW /\
     forall j i v, worker_at Pw (j :: i :: repeat 0 nk) v ->
       exists t, dweight v = Ok t /\ teq t (block (balanced (tshape W) (co :: ci :: repeat 1 nk)) (j :: i :: repeat 0 nk) dW)) /\
  (bias <> None -> exists db, conv_bias_gradient_near F cout dY b ys db /\
     forall j v, worker_at Pw (j :: 0 :: repeat 0 nk) v -> exists t, dbias v = Some (Ok t) /\ teq t (block (balanced [cout] [co]) [j] db)) /\
  (forall v,
    (exists dX, back_x v true W X dY = Ok dX /\ conv_input_gradient_near F w groups cin cout W dY b xs ys dX) /\
    (exists dW, back_w v true W X dY = Ok dW /\ conv_weight_gradient_near F w groups cin cout X dY b ys dW) /\
    (exists db, back_b v true W X dY = Ok db /\ conv_bias_gradient_near F cout dY b ys db)).

(** ** Proofs *)

Section Near.
  Variables (F : format) (M : machine (words F)).
  Hypothesis HM : ieee F M.

  Lemma input_near w groups cin cout W dY b xs ys dX : conv_input_gradient_by M w groups cin cout W dY b xs ys dX ->
    conv_input_gradient_near F w groups cin cout W dY b xs ys dX.
  Proof. intros [S V]. split; [exact S|]. intros b' ch q Hq. apply (C62_sums F M); auto. Qed.
  Lemma weight_near w groups cin cout X dY b ys dW : conv_weight_gradient_by M w groups cin cout X dY b ys dW ->
    conv_weight_gradient_near F w groups cin cout X dY b ys dW.
  Proof.
    intros [S V]. split; [exact S|]. intros c k t Hq. apply (near_kept F M HM); [|now apply V].
    intros m e Hin Em. exact (weight_marks _ _ _ _ _ _ _ _ _ _ _ _ _ Hin Em).
  Qed.
  Lemma bias_near cout dY b ys db : conv_bias_gradient_by M cout dY b ys db -> conv_bias_gradient_near F cout dY b ys db.
  Proof. intros [S V]. split; [exact S|]. intros c Hc. apply (C62_sums F M); auto. Qed.
End Near.

Lemma twice (s e p q : R) : (Rabs (p - s) <= e)%real -> (Rabs (q - s) <= e)%real -> (Rabs (p - q) <= 2 * e)%real.
Proof.
  intros E E'. replace (p - q)%real with ((p - s) - (q - s))%real by ring. eapply Rle_trans; [apply Rabs_triang|]. rewrite Rabs_Ropp. lra.
Qed.

Lemma C75_two_results_proof : C75_two_results_statement.
Proof.
  intros F w groups cin cout X W dY b xs ys. split; [|split].
  - intros dX dX' [S V] [S' V'] b' ch q Hq A A'. destruct (proj1 (V b' ch q Hq) A) as [_ E]. rewrite S, <- S' in Hq.
    destruct (proj1 (V' b' ch q Hq) A') as [_ E']. exact (twice _ _ _ _ E E').
  - intros dX dX' [S V] [S' V'] b' ch q Hq A A'. destruct (proj1 (V b' ch q Hq) A) as [_ E]. rewrite S, <- S' in Hq.
    destruct (proj1 (V' b' ch q Hq) A') as [_ E']. exact (twice _ _ _ _ E E').
  - intros db db' [S V] [S' V'] c Hc A A'. destruct (proj1 (V c Hc) A) as [_ E]. destruct (proj1 (V' c Hc) A') as [_ E']. exact (twice _ _ _ _ E E').
Qed.

Lemma C75_channel_proof : C75_channel_statement.
Proof.
  intros F M red torch back_x back_w back_b Px Py Pw co ci w groups cin cout X W bias b xs ys dY weight bias_of x dy dt dt' rg rg'
    HI HM HT HTB HD HX HO ED HDY HOd nk dx dweight dbias.
  destruct (C74_channel_gradients (words F) M red torch back_x back_w back_b Px Py Pw co ci w groups cin cout X W bias b xs ys dY weight bias_of x dy
    dt dt' rg rg' HM HT HTB HD HX HO ED HDY HOd) as ((dX & BX & DX) & (dW & BW & DW) & B & _).
  split; [exists dX; split; [now apply (input_near F M)|exact DX]|].
  split; [exists dW; split; [now apply (weight_near F M)|exact DW]|].
  split; [intros Hn; destruct (B Hn) as (db & Bb & Db); exists db; split; [now apply (bias_near F M)|exact Db]|].
  intros v. pose proof HD as (_ & _ & _ & _ & _ & HG & _).
  assert (HG' : conv_arguments w groups cin cout X W None b xs ys).
  { destruct HG as (A1 & A2 & A3 & A4 & A5 & A6 & A7 & A8 & A9 & A10 & A11 & A12 & A13). repeat (split; [assumption|]). exact I. }
  destruct (HTB v true cin cout X W b xs ys dY HG' ED) as ((dX' & E1 & F1) & (dW' & E2 & F2) & (db' & E3 & F3)).
  split; [exists dX'; split; [exact E1|now apply (input_near F M)]|].
  split; [exists dW'; split; [exact E2|now apply (weight_near F M)]|].
  exists db'; split; [exact E3|now apply (bias_near F M)].
Qed.

Theorem C75_two_results : C75_two_results_statement.
Proof. exact C75_two_results_proof. Qed.
Theorem C75_channel_gradients : C75_channel_statement.
Proof. exact C75_channel_proof. Qed.

(** * Example

    C54's layer in half precision. *)
Definition ex75_dy (v : Z) : tensor (words half) := hmap (ex54_dy v).
Definition ex75_dx : Z -> result (tensor (words half)) :=
  channel_backward_by (alternate ex62_M) (alternate_conv ex62_M ex33_win 1) (alternate_back_x ex62_M ex33_win 1) ex33_x ex33_y ex33_w true
    (fun _ => 0) (fun _ => 0) (fun _ => true) (fun _ => true) ex71_weight ex71_bias ex71_in ex75_dy.
Definition ex75_dweight : Z -> result (tensor (words half)) :=
  channel_weight_by (alternate_conv ex62_M ex33_win 1) (alternate_back_w ex62_M ex33_win 1) ex33_x ex33_y ex33_w true
    (fun _ => 0) (fun _ => 0) (fun _ => true) (fun _ => true) ex71_weight ex71_bias ex71_in ex75_dy.

Example C75_example :
  ieee half ex62_M /\ adds ex62_M (alternate ex62_M) /\ torch_conv_by ex62_M ex33_win 1 (alternate_conv ex62_M ex33_win 1) /\
  torch_conv_back_by ex62_M ex33_win 1 (alternate_back_x ex62_M ex33_win 1) (alternate_back_w ex62_M ex33_win 1) (alternate_back_b ex62_M) /\
  distributed_conv ex33_x ex33_y ex33_w 3 2 [1] ex33_win 1 3 5 (hmap ex33_X) (hmap ex33_W) (Some (hmap ex33_b)) 2 [4] [4] ex71_weight ex71_bias /\
  holds_blocks ex33_x (balanced [2; 3; 4] [1; 2; 1]) (hmap ex33_X) ex71_in /\ others_pass ex33_x ex33_y ex33_w ex71_in /\
  tshape (hmap ex54_dY) = [2; 5; 4] /\ holds_blocks ex33_y (balanced [2; 5; 4] [1; 3; 1]) (hmap ex54_dY) ex75_dy /\
  others_pass ex33_y ex33_x ex33_w ex75_dy /\
  (* elements, distributed and on one worker *)
  let whole_x := val (alternate_back_x ex62_M ex33_win 1 1 true (hmap ex33_W) (hmap ex33_X) (hmap ex54_dY)) in
  let whole_w := val (alternate_back_w ex62_M ex33_win 1 1 true (hmap ex33_W) (hmap ex33_X) (hmap ex54_dY)) in
  hf_bits (tat (val (ex75_dx 1)) [0; 0; 1]) = 27866 /\ hf_bits (tat whole_x [0; 2; 1]) = 27865 /\
  hf_bits (tat (val (ex75_dweight 4)) [1; 0; 2]) = 26934 /\ hf_bits (tat whole_w [3; 2; 2]) = 26934 /\
  finite half (tat (val (ex75_dx 1)) [0; 0; 1]) /\ finite half (tat (val (ex75_dweight 4)) [1; 0; 2]).
Proof.
  destruct C71_channel_example as (E1 & E2 & E3 & E4 & E5 & E6 & _). destruct C54_example as (_ & _ & _ & _ & _ & F1 & F2 & F3 & _).
  split; [exact E1|]. split; [exact E2|]. split; [exact E3|]. split; [apply alternate_back_ok|]. split; [exact E4|]. split; [exact E5|]. split; [exact E6|].
  split; [reflexivity|]. split; [|split; [exact F3|]].
  - destruct F2 as [B1 B2]. split; [exact B1|]. intros idx v Hv. apply hmap_block. exact (B2 idx v Hv).
  - cbv zeta. repeat split; vm_compute; reflexivity.
Qed.

Print Assumptions C75_channel_gradients.
Print Assumptions C75_two_results.
