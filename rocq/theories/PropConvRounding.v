(** Rounding errors of channel- and generally-distributed convolutions: C71. *)

From Coq Require Import Reals Lra Sorting.Permutation.
From Flocq Require Import Core Binary Bits BinarySingleNaN.
From Verif Require Import Prelude SpecIndex SpecLayout SpecPartition SpecHalo ModelSlicing ModelDecomposition ModelPartition ProofPartition Ring Tensor
  ModelCollectives PropCollectives Blocks ModelUtilities P2P Rounds ModelRepartition PropRepartition ModelHaloMixin PropHaloMixin ModelHaloExchange
  PropHaloExchange ModelFeatureLayer SpecFeature PropFeatureLayer PropFeatureConv ModelLinear PropLinear ModelConv PropConv PropConvChannel
  PropConvGeneral ModelReduce SpecSum PropReduce SpecRounding PropRounding SpecConvSum ModelConvReduce PropConvReduce.

(** [r] is near to the sum of all terms, those that may be left out included. *)
Definition near_all (F : format) (l : list (bool * term (words F))) (r : words F) : Prop :=
  (finite F r -> (forall t, In (false, t) l -> finite_term F t) /\
     (Rabs (number F r - sum_number F (map snd l)) <= sum_error F (map snd l))%real) /\
  (Forall (finite_term F) (map snd l) -> (sum_abs F (map snd l) + sum_error F (map snd l) < bpow radix2 (f_max F))%real -> finite F r).
Definition conv_near (F : format) (w : window) (groups cin cout : Z) (X W : tensor (words F)) (bias : option (tensor (words F))) (b : Z) (ys : list Z)
    (Y : tensor (words F)) : Prop :=
  tshape Y = b :: cout :: ys /\
  forall b' c' o, valid_index (tshape Y) (b' :: c' :: o) -> near_all F (conv_terms w groups cin cout X W bias b' c' o) (tat Y (b' :: c' :: o)).

(** Two convolutions with the same arguments differ by at most the sum of both errors. *)
Definition C71_two_results_statement : Prop :=
  forall (F : format) w groups cin cout X W bias b ys Y Y', conv_near F w groups cin cout X W bias b ys Y ->
  conv_near F w groups cin cout X W bias b ys Y' ->
  forall b' c' o, valid_index (tshape Y) (b' :: c' :: o) -> finite F (tat Y (b' :: c' :: o)) -> finite F (tat Y' (b' :: c' :: o)) ->
  (Rabs (number F (tat Y (b' :: c' :: o)) - number F (tat Y' (b' :: c' :: o))) <=
   2 * sum_error F (map snd (conv_terms w groups cin cout X W bias b' c' o)))%real.

(** The distributed layer, and the sequential layer on any worker. *)
Definition C71_channel_statement : Prop :=
  forall (F : format) (M : machine (words F)) red torch (Px Py Pw : part) (co ci : Z) (w : window) (groups cin cout : Z)
    (X W : tensor (words F)) (bias : option (tensor (words F))) (b : Z) (xs ys : list Z) (weight bias_of x : Z -> tensor (words F)) dt dt' rg rg',
  ieee F M -> adds M red -> torch_conv_by M w groups torch ->
  distributed_conv Px Py Pw co ci (repeat 1 (length (w_kernel w))) w groups cin cout X W bias b xs ys weight bias_of ->
  holds_blocks Px (balanced (tshape X) (p_shape Px)) X x -> others_pass Px Py Pw x ->
  (exists Y, conv_near F w groups cin cout X W bias b ys Y /\
    conv_delivers Px Py Pw Y x (channel_conv_by red torch Px Py Pw (has_bias bias) dt dt' rg rg' weight bias_of x)) /\
  (forall v, exists Y, torch v true W bias X = Ok Y /\ conv_near F w groups cin cout X W bias b ys Y).

Definition C71_general_statement : Prop :=
  forall (F : format) (M : machine (words F)) red torch (world : list Z) (Px Py Pw : part) (co ci : Z) (S : list Z) (L : layout) (w : window)
    (groups cin cout : Z) (X W : tensor (words F)) (bias : option (tensor (words F))) (b : Z) (xs ys : list Z)
    (weight bias_of x : Z -> tensor (words F)) dt dt' dtw dtb rg rg' rgw rgb,
  ieee F M -> adds M red -> torch_conv_by M w groups torch ->
  distributed_conv Px Py Pw co ci S w groups cin cout X W bias b xs ys weight bias_of ->
  feature_given world Px L w -> holds_blocks Px L X x -> others_pass Px Py Pw x ->
  ((1 < length (p_ranks Pw))%nat -> within L w (b :: cin :: ys)) ->
  let shape v := tshape (x v) in
  let arg := halo_argument Px w rzero shape x in
  let plan := halo_plan Px w shape in
  let layer := history_rounds Px (fun v => tshape (arg v)) (fun v => u_recv (plan v)) (fun v => u_send (plan v)) in
  forall pre init eager g, same_calls Px arg pre -> ends world (layer (pre ++ [HForward arg])) init eager g ->
  (exists Y, conv_near F w groups cin cout X W bias b ys Y /\
    conv_delivers Px Py Pw Y x
      (general_conv_by red torch Px Py Pw w (has_bias bias) dt dt' dtw dtb rg rg' rgw rgb weight bias_of shape x (halo_result g))) /\
  (forall v, exists Y, torch v true W bias X = Ok Y /\ conv_near F w groups cin cout X W bias b ys Y).

(** ** Proofs *)

Section Near.
  Variables (F : format) (M : machine (words F)).
  Hypothesis HM : ieee F M.

  Lemma number_zero : number F (rzero (c := words F)) = 0%real.
  Proof. unfold number. now rewrite decode_zero. Qed.

  Lemma kept_numbers l l' : (forall m t, In (m, t) l -> m = true -> exists a, t = Prod (rzero (c := words F)) a) -> kept l l' ->
    sum_number F l' = sum_number F (map snd l) /\ sum_abs F l' = sum_abs F (map snd l) /\ (length l' <= length (map snd l))%nat /\
    (forall t, In (false, t) l -> In t l') /\ (forall t, In t l' -> In t (map snd l)).
  Proof.
    intros H K. induction K as [|m t l l' K IH|t l l' K IH]; [cbn; repeat split; auto; intros u []|destruct (IH (fun m t Hin => H m t (or_intror Hin))) as (A & B & C & D & E)..].
    - cbn [map snd]. rewrite !sum_cons, !abs_cons, A, B. cbn [length]. split; [reflexivity|]. split; [reflexivity|]. split; [lia|]. split.
      + intros u [Hu|Hu]; [left; now inversion Hu|right; auto].
      + intros u [Hu|Hu]; [now left|right; auto].
    - cbn [map snd]. rewrite !sum_cons, !abs_cons, A, B. cbn [length].
      destruct (H true t (or_introl eq_refl) eq_refl) as [a ->]. cbn [term_number]. rewrite number_zero, Rmult_0_l, Rabs_R0, !Rplus_0_l.
      split; [reflexivity|]. split; [reflexivity|]. split; [lia|]. split; [intros u [Hu|Hu]; [discriminate|auto]|intros u Hu; right; auto].
  Qed.

  Lemma near_kept l r : (forall m t, In (m, t) l -> m = true -> exists a, t = Prod (rzero (c := words F)) a) -> may_evaluate M l r -> near_all F l r.
  Proof.
    intros H (l' & K & E). destruct (kept_numbers l l' H K) as (A & B & C & D & I). destruct (C62_sums F M l' r HM E) as [N1 N2].
    assert (ME : (sum_error F l' <= sum_error F (map snd l))%real).
    { rewrite !error_err, B. apply err_mono; [exact C|apply abs_pos|apply Rle_refl]. }
    split.
    - intros Hr. destruct (N1 Hr) as [Q1 Q2]. split; [intros t Ht; rewrite Forall_forall in Q1; apply Q1, D, Ht|].
      rewrite <- A. eapply Rle_trans; [exact Q2|exact ME].
    - intros Hf Hs. apply N2.
      + rewrite Forall_forall in *. intros t Ht. apply Hf, I, Ht.
      + rewrite B. eapply Rle_lt_trans; [|exact Hs]. apply Rplus_le_compat_l, ME.
  Qed.

  Lemma by_near w groups cin cout X W bias b ys Y : conv_by M w groups cin cout X W bias b ys Y -> conv_near F w groups cin cout X W bias b ys Y.
  Proof.
    intros [SY VY]. split; [exact SY|]. intros b' c' o Hq. apply near_kept; [|now apply VY].
    intros m t Hin Em. exact (conv_marks _ _ _ _ _ _ _ _ _ _ _ _ Hin Em).
  Qed.
End Near.

Lemma C71_two_results_proof : C71_two_results_statement.
Proof.
  intros F w groups cin cout X W bias b ys Y Y' [SY VY] [SY' VY'] b' c' o Hq A A'.
  destruct (proj1 (VY b' c' o Hq) A) as [_ E]. rewrite SY, <- SY' in Hq. destruct (proj1 (VY' b' c' o Hq) A') as [_ E']. revert E E'.
  set (l := map snd _). generalize (sum_number F l) (sum_error F l) (number F (tat Y (b' :: c' :: o))) (number F (tat Y' (b' :: c' :: o))).
  intros s e p q E E'. replace (p - q)%real with ((p - s) - (q - s))%real by ring.
  eapply Rle_trans; [apply Rabs_triang|]. rewrite Rabs_Ropp. lra.
Qed.

Lemma C71_channel_proof : C71_channel_statement.
Proof.
  intros F M red torch Px Py Pw co ci w groups cin cout X W bias b xs ys weight bias_of x dt dt' rg rg' HM HA HT HD HB HO. split.
  - destruct (C70_channel_conv (words F) M red torch Px Py Pw co ci w groups cin cout X W bias b xs ys weight bias_of x dt dt' rg rg' HA HT HD HB HO)
      as (Y & BY & DY). exists Y. split; [now apply (by_near F M)|exact DY].
  - intros v. destruct HD as (_ & _ & _ & _ & _ & HG & _). destruct (HT v true cin cout X W bias b xs ys HG) as (Y & EY & BY).
    exists Y. split; [exact EY|now apply (by_near F M)].
Qed.

Lemma C71_general_proof : C71_general_statement.
Proof.
  intros F M red torch world Px Py Pw co ci S L w groups cin cout X W bias b xs ys weight bias_of x dt dt' dtw dtb rg rg' rgw rgb
    HM HA HT HD HF HB HO HN shape arg plan layer pre init eager g Hc He. split.
  - destruct (C70_general_conv (words F) M red torch world Px Py Pw co ci S L w groups cin cout X W bias b xs ys weight bias_of x
      dt dt' dtw dtb rg rg' rgw rgb HA HT HD HF HB HO HN pre init eager g Hc He) as (Y & BY & DY). exists Y. split; [now apply (by_near F M)|exact DY].
  - intros v. destruct HD as (_ & _ & _ & _ & _ & HG & _). destruct (HT v true cin cout X W bias b xs ys HG) as (Y & EY & BY).
    exists Y. split; [exact EY|now apply (by_near F M)].
Qed.

Theorem C71_two_results : C71_two_results_statement.
Proof. exact C71_two_results_proof. Qed.
Theorem C71_channel_conv : C71_channel_statement.
Proof. exact C71_channel_proof. Qed.
Theorem C71_general_conv : C71_general_statement.
Proof. exact C71_general_proof. Qed.

(** * Examples

    The layer of C33's example, in half precision. *)
Definition ex71_weight (v : Z) : tensor (words half) := hmap (ex33_weight v).
Definition ex71_bias (v : Z) : tensor (words half) := hmap (ex33_bias v).
Definition ex71_in (v : Z) : tensor (words half) := hmap (ex33_in v).
Definition ex71_out : Z -> result (tensor (words half)) :=
  channel_conv_by (alternate ex62_M) (alternate_conv ex62_M ex33_win 1) ex33_x ex33_y ex33_w true (fun _ => 0) (fun _ => 0)
    (fun _ => true) (fun _ => true) ex71_weight ex71_bias ex71_in.

Lemma hmap_block L idx (t : tensor Zring) u : teq u (block L idx t) -> teq (hmap u) (block L idx (hmap t)).
Proof. intros [A B]. split; [exact A|]. intros i Hi. cbn [hmap tat tshape block] in *. now rewrite (B i Hi). Qed.

Example C71_channel_example :
  ieee half ex62_M /\ adds ex62_M (alternate ex62_M) /\ torch_conv_by ex62_M ex33_win 1 (alternate_conv ex62_M ex33_win 1) /\
  distributed_conv ex33_x ex33_y ex33_w 3 2 [1] ex33_win 1 3 5 (hmap ex33_X) (hmap ex33_W) (Some (hmap ex33_b)) 2 [4] [4] ex71_weight ex71_bias /\
  holds_blocks ex33_x (balanced [2; 3; 4] [1; 2; 1]) (hmap ex33_X) ex71_in /\ others_pass ex33_x ex33_y ex33_w ex71_in /\
  (* an element, distributed and on one worker *)
  let whole := val (alternate_conv ex62_M ex33_win 1 1 true (hmap ex33_W) (Some (hmap ex33_b)) (hmap ex33_X)) in
  hf_bits (tat (val (ex71_out 7)) [1; 1; 3]) = 31057 /\ hf_bits (tat whole [1; 3; 3]) = 31056 /\
  finite half (tat (val (ex71_out 7)) [1; 1; 3]) /\ finite half (tat whole [1; 3; 3]).
Proof.
  destruct C70_channel_example as (_ & _ & (D1 & D2 & D3 & D4 & D5 & D6 & D7 & (D8 & D9 & D10)) & HB & HO & _).
  split; [apply float_machine_ieee|]. split; [apply alternate_adds|]. split; [apply alternate_conv_ok; exact D3|]. split.
  { split; [exact D1|]. split; [exact D2|]. split; [exact D3|]. split; [exact D4|]. split; [exact D5|]. split; [|split; [exact D7|split; [|split]]].
    - destruct D6 as (A1 & A2 & A3 & A4 & A5 & A6 & A7 & A8 & A9 & A10 & A11 & A12 & A13). repeat (split; [assumption|]). assumption.
    - intros j i v Hv. apply hmap_block. exact (D8 j i v Hv).
    - intros j v Hv. apply hmap_block. exact (D9 j v Hv).
    - exact D10. }
  split; [|split].
  - destruct HB as [B1 B2]. split; [exact B1|]. intros idx v Hv. apply hmap_block. exact (B2 idx v Hv).
  - exact HO.
  - cbv zeta. repeat split; vm_compute; reflexivity.
Qed.

(** The generally-distributed layer. *)
Definition ex71_g (v : Z) : tensor (words half) := hmap (gc_in v).
Definition ex71_arg := halo_argument gc_x gc_win (rzero (c := words half)) gc_shape ex71_g.
Definition ex71_rounds := history_rounds gc_x (fun v => tshape (ex71_arg v)) (fun v => u_recv (gc_plan v)) (fun v => u_send (gc_plan v)) [HForward ex71_arg].
Definition ex71_start : Z -> @hst (words half) := fun _ =>
  mkhst (@mkt (words half) [] (fun _ => hz 0)) (@mkt (words half) [] (fun _ => hz 0)) (@mkt (words half) [] (fun _ => hz 0)) [].
Definition ex71_run (v : Z) : tensor (words half) :=
  last (h_hist (sync_rounds ex71_rounds ex71_start v)) (@mkt (words half) [] (fun _ => hz 0)).
Definition ex71_general : Z -> result (tensor (words half)) :=
  general_conv_by (alternate ex62_M) (alternate_conv ex62_M gc_win 1) gc_x gc_y gc_w gc_win true (fun _ => 0) (fun _ => 0) (fun _ => 0) (fun _ => 0)
    (fun _ => true) (fun _ => true) (fun _ => true) (fun _ => true) (fun v => hmap (gc_weight v)) (fun v => hmap (gc_bias v)) gc_shape ex71_g ex71_run.

Example C71_general_example :
  torch_conv_by ex62_M gc_win 1 (alternate_conv ex62_M gc_win 1) /\
  distributed_conv gc_x gc_y gc_w 2 2 [2] gc_win 1 3 4 (hmap gc_X) (hmap gc_W) (Some (hmap gc_b)) 1 [8] [8]
    (fun v => hmap (gc_weight v)) (fun v => hmap (gc_bias v)) /\
  feature_given gc_world gc_x gc_L gc_win /\ holds_blocks gc_x gc_L (hmap gc_X) ex71_g /\ others_pass gc_x gc_y gc_w ex71_g /\
  within gc_L gc_win [1; 3; 8] /\
  let whole := val (alternate_conv ex62_M gc_win 1 1 true (hmap gc_W) (Some (hmap gc_b)) (hmap gc_X)) in
  map (fun i => hf_bits (tat (val (ex71_general 8)) i)) (indices [1; 2; 4]) = [30628; 30673; 30686; 30699; 31001; 31032; 31041; 31049] /\
  map (fun i => hf_bits (tat whole i)) [[0; 2; 0]; [0; 2; 1]; [0; 2; 2]; [0; 2; 3]; [0; 3; 0]; [0; 3; 1]; [0; 3; 2]; [0; 3; 3]] =
    [30629; 30673; 30685; 30699; 31000; 31032; 31041; 31050].
Proof.
  destruct C70_general_example as (_ & (D1 & D2 & D3 & D4 & D5 & D6 & D7 & (D8 & D9 & D10)) & HG & HB & HO & HW & _).
  split; [apply alternate_conv_ok; exact D3|]. split.
  { split; [exact D1|]. split; [exact D2|]. split; [exact D3|]. split; [exact D4|]. split; [exact D5|]. split; [|split; [exact D7|split; [|split]]].
    - destruct D6 as (A1 & A2 & A3 & A4 & A5 & A6 & A7 & A8 & A9 & A10 & A11 & A12 & A13). repeat (split; [assumption|]). assumption.
    - intros j i v Hv. apply hmap_block. exact (D8 j i v Hv).
    - intros j v Hv. apply hmap_block. exact (D9 j v Hv).
    - exact D10. }
  split; [exact HG|]. split; [|split; [exact HO|split; [exact HW|]]].
  - destruct HB as [B1 B2]. split; [exact B1|]. intros idx v Hv. apply hmap_block. exact (B2 idx v Hv).
  - cbv zeta. repeat split; vm_compute; reflexivity.
Qed.

Print Assumptions C71_two_results.
Print Assumptions C71_channel_conv.
Print Assumptions C71_general_conv.
