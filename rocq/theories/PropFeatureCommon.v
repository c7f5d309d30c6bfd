(** C30 for common layers, where its condition holds. *)

From Verif Require Import Prelude SpecIndex SpecLayout SpecPartition SpecHalo ModelSlicing ModelDecomposition
  ModelPartition ProofSlicing ProofDecomposition ProofPartition Ring Tensor ModelCollectives PropCollectives PropExchange
  ModelUtilities PropUtilities Blocks P2P Rounds ModelRepartition ProofTransfer PropRepartition ModelHaloMixin ProofHaloMixin
  PropHaloMixin ModelHaloExchange PropHaloExchange ModelFeatureLayer SpecFeature ProofFeatureLayer PropFeatureLayer PropFeatureConv.

(** One more element moves the start of a block by at most one. *)
Lemma start1_succ P i n : 0 < P -> 0 <= i <= P -> 0 <= n ->
  start1 P i n <= start1 P i (n + 1) <= start1 P i n + 1.
Proof.
  intros HP Hi Hn. unfold start1.
  pose proof (Z.div_mod n P ltac:(lia)) as E. pose proof (Z.mod_pos_bound n P HP) as B.
  pose proof (Z.div_mod (n + 1) P ltac:(lia)) as E'. pose proof (Z.mod_pos_bound (n + 1) P HP) as B'.
  destruct (Z.eq_dec (n mod P) (P - 1)) as [C|C].
  - assert ((n + 1) / P = n / P + 1) by (symmetry; apply Z.div_unique with (r := 0); nia).
    assert ((n + 1) mod P = 0) by nia. nia.
  - assert ((n + 1) / P = n / P) by (symmetry; apply Z.div_unique with (r := n mod P + 1); nia).
    assert ((n + 1) mod P = n mod P + 1) by nia. nia.
Qed.

Lemma start1_lipschitz P i n c : 0 < P -> 0 <= i <= P -> 0 <= n -> 0 <= c ->
  start1 P i n <= start1 P i (n + c) <= start1 P i n + c.
Proof.
  intros HP Hi Hn Hc. pattern c. apply natlike_ind; auto.
  - rewrite Z.add_0_r. lia.
  - intros x Hx IH. replace (n + Z.succ x) with (n + x + 1) by lia.
    pose proof (start1_succ P i (n + x) HP Hi ltac:(lia)). lia.
Qed.

Lemma prefix_multiple e z i : Forall (fun n => n = z) e -> (i <= length e)%nat -> zsum (firstn i e) = Z.of_nat i * z.
Proof.
  intros F. revert i. induction F as [|n e Hn F IH]; intros [|i] Hi; cbn [length] in Hi; try lia; [reflexivity|reflexivity|].
  cbn [firstn zsum fold_right]. fold (zsum (firstn i e)). rewrite IH by lia. lia.
Qed.

Lemma count_bounds n k s p d ny : 0 < ny -> 0 < s -> window_count n k s p d ny ->
  s * (ny - 1) + d * (k - 1) < n + 2 * p <= s * ny + d * (k - 1).
Proof.
  intros Hy Hs [_ C]. unfold window_fits in C. split; [apply C; lia|].
  destruct (Z.le_gt_cases (n + 2 * p) (s * ny + d * (k - 1))) as [A|A]; auto. apply C in A; lia.
Qed.

Lemma common_within e k s p d ny : e <> [] -> 0 < k -> 0 < s -> 0 <= p -> 0 < d -> 0 < ny ->
  window_count (zsum e) k s p d ny -> dim_common e k s p d -> dim_within (pad1 e p) ny k s d.
Proof.
  intros He Hk Hs Hp Hd Hny Hc HC. pose proof (count_bounds _ _ _ _ _ _ Hny Hs Hc) as CB.
  set (P := Z.of_nat (length e)). assert (HP : 0 < P) by (unfold P; destruct e; [congruence|cbn [length]; lia]).
  set (K := d * (k - 1)) in *. assert (HK : 0 <= K) by (unfold K; nia).
  unfold dim_within. rewrite pad1_length. fold P K.
  intros i Hi. rewrite !pad1_prefix by lia.
  rewrite !balanced1_prefix_nat by lia. rewrite Nat2Z.inj_succ. unfold Z.succ.
  replace (Nat.eqb (S i) 0) with false by reflexivity.
  replace (Nat.eqb i (length e)) with false by (symmetry; apply Nat.eqb_neq; lia).
  cbn [andb negb]. rewrite andb_true_r.
  destruct HC as [H1|[(Hs1 & Hb & HpK & HF)|(Hp0 & HKs & m & Hm & HF)]].
  - (* one worker *)
    assert (i = 0)%nat by lia. subst i. assert (EP : P = 1) by (unfold P; lia). rewrite EP. rewrite H1.
    cbn [Nat.eqb]. replace (Z.of_nat 0 + 1) with 1 by lia. change (Z.of_nat 0) with 0.
    rewrite start1_0, start1_P by lia. destruct e as [|e0 [|]]; try discriminate. cbn [firstn zsum fold_right] in *.
    cbn [andb negb]. split; [lia|]. split; [lia|]. split; intros; lia.
  - (* stride one *)
    subst s. set (n := zsum e) in *.
    assert (EP : forall i, (i <= length e)%nat -> zsum (firstn i e) = start1 P (Z.of_nat i) n).
    { intros i' Hi'. rewrite Hb at 1. apply balanced1_prefix_nat; auto. unfold P. lia. }
    assert (En : forall i, (i < length e)%nat -> K + 1 <= nth i e 0).
    { intros i' Hi'. rewrite Forall_forall in HF. apply HF, nth_In; auto. }
    assert (Hn : P * (K + 1) <= n).
    { unfold n, P. clear - HF. induction HF as [|z l Hz F IH]; [cbn; lia|]. cbn [length zsum fold_right]. fold (zsum l). lia. }
    assert (Ey : ny = n + 2 * p - K) by lia.
    rewrite !EP by lia. rewrite Nat2Z.inj_succ. unfold Z.succ.
    assert (D : forall i, 0 <= i <= P -> start1 P i n + p - K <= start1 P i ny + 0 /\ p + start1 P i n - start1 P i ny <= K /\
                 start1 P i ny + K - p - start1 P i n <= K).
    { intros i' Hi'. destruct (Z.le_gt_cases (2 * p) K) as [A|A].
      - pose proof (start1_lipschitz P i' ny (K - 2 * p) HP Hi' ltac:(lia) ltac:(lia)) as Q.
        replace (ny + (K - 2 * p)) with n in Q by lia. lia.
      - pose proof (start1_lipschitz P i' n (2 * p - K) HP Hi' ltac:(nia) ltac:(lia)) as Q.
        replace (n + (2 * p - K)) with ny in Q by lia. lia. }
    assert (Step : start1 P (Z.of_nat i + 1) ny = start1 P (Z.of_nat i) ny + subshape1 P (Z.of_nat i) ny).
    { apply start1_step; lia. }
    assert (Sub : 0 < subshape1 P (Z.of_nat i) ny).
    { unfold subshape1. assert (1 <= ny / P) by (apply Z.div_le_lower_bound; nia). destruct (_ <? _); lia. }
    assert (iP : Z.of_nat i + 1 <= P) by (unfold P; lia).
    pose proof (D (Z.of_nat i) ltac:(lia)) as D0. pose proof (D (Z.of_nat i + 1) ltac:(lia)) as D1.
    split; [lia|]. split; [|split].
    + destruct (Nat.eqb_spec (S i) (length e)) as [E|E]; [|lia].
      replace (Z.of_nat i + 1) with P by (unfold P; lia). rewrite !start1_P by lia. lia.
    + intros Hi0. destruct (Nat.eqb_spec i 0) as [E|E]; [lia|].
      rewrite pad1_nth by lia. pose proof (En (i - 1)%nat ltac:(lia)).
      destruct (Nat.eqb (i - 1) 0), (Nat.eqb (S (i - 1)) (length e)); lia.
    + intros Hi1. destruct (Nat.eqb_spec (S i) (length e)) as [E'|E']; [lia|].
      rewrite pad1_nth by lia. pose proof (En (S i) ltac:(lia)).
      destruct (Nat.eqb (S i) 0), (Nat.eqb (S (S i)) (length e)); lia.
  - (* multiples of the stride *)
    subst p. rewrite !(prefix_multiple e (s * m)) by (auto; lia).
    assert (En : zsum e = P * (s * m)).
    { rewrite <- (firstn_all e). rewrite (prefix_multiple e (s * m)) by auto. reflexivity. }
    assert (Ey : ny = P * m) by nia.
    assert (Ed : forall i, start1 P i ny = m * i \/ i < 0).
    { intros i'. destruct (Z.lt_ge_cases i' 0) as [A|A]; auto. left. unfold start1. rewrite Ey.
      rewrite (Z.mul_comm P m), Z.div_mul, Z.mod_mul by lia. lia. }
    destruct (Ed (Z.of_nat i)) as [-> |]; [|lia]. destruct (Ed (Z.of_nat i + 1)) as [-> |]; [|lia].
    rewrite Nat2Z.inj_succ. unfold Z.succ.
    assert (Enn : forall i, (i < length e)%nat -> nth i (pad1 e 0) 0 = s * m).
    { intros i' Hi'. rewrite pad1_nth by auto. rewrite Forall_forall in HF. rewrite (HF (nth i' e 0)) by (now apply nth_In).
      destruct (Nat.eqb i' 0), (Nat.eqb (S i') (length e)); lia. }
    destruct (Nat.eqb i 0), (Nat.eqb (S i) (length e)); (split; [nia|]);
      (split; [nia|]; split; intros; rewrite Enn by lia; nia).
Qed.

Lemma common_all (R : CRing) world P L w f cout value (G Y : tensor R) x :
  feature_given world P L w -> is_sequential f cout value w G Y -> holds_blocks P L G x ->
  common L w (out_counts G Y) -> within L w (out_counts G Y).
Proof.
  intros HG (b & c & xs & ys & EG & EY & Hcnt & Hb & Hc0 & Hys & HY) HB HC.
  unfold out_counts. rewrite EG, EY. cbn [nth skipn].
  intros j Hj. 
  pose proof (g_counts world P L w f value G Y x HG b c xs ys EG Hcnt Hb Hc0 HY HB) as [Hl C].
  rewrite layout_shape_length in Hl, C. specialize (C j Hj). rewrite xshape_nth in C by auto. specialize (HC j Hj).
  assert (Hn : nth j L [] <> []).
  { intros E. destruct HG as (_ & _ & (_ & _ & Hp & _) & _ & HW & _). rewrite <- HW in Hp.
    pose proof (workers_nth L j Hj) as Q. rewrite E in Q. cbn in Q. unfold pos_shape in Hp. rewrite Forall_forall in Hp.
    assert (0 < nth j (layout_workers L) 0) by (apply Hp, nth_In; now rewrite layout_workers_length). lia. }
  assert (Hw : window_ok (length L) (full_window (length L) w)).
  { rewrite (g_full world P L w G x HG HB).
    destruct HG as (_ & _ & _ & _ & HW & HD & (W1 & W2 & W3 & W4 & F1 & F2 & F3 & F4)).
    rewrite <- HW, layout_workers_length in HD. unfold window_ok. cbn [w_kernel w_stride w_padding w_dilation length].
    rewrite W2, W3, W4, HD. assert (one : 0 < 1) by lia. assert (zero : 0 <= 0) by lia. auto 10. }
  destruct (window_nth _ _ j Hw Hj) as (B1 & B2 & B3 & B4).
  apply common_within; auto.
  pose proof (g_ny b c ys Hb Hc0 Hys) as F. rewrite Forall_forall in F. apply F, nth_In. lia.
Qed.

Theorem C30_common_layers_partial : C30_statement common.
Proof.
  intros R world P L w f cout value G Y x HG HK HC HS HB Hin.
  apply (C30_proof R world P L w f cout value G Y x HG HK HC HS HB). eapply common_all; eauto.
Qed.

Theorem C30_common_convolutions_partial : C30_conv_statement common.
Proof.
  intros R world P L w cout groups use_bias dt rg rgb weight bias G Y x HG HC HP HS HB Hin.
  apply (C30_conv_proof R world P L w cout groups use_bias dt rg rgb weight bias G Y x HG HC HP HS HB).
  intros H1. eapply common_all; eauto.
Qed.


Theorem C30_feature_layers_partial : C30_statement within.
Proof. exact C30_proof. Qed.

Theorem C30_convolutions_partial : C30_conv_statement within.
Proof. exact C30_conv_proof. Qed.

(** Pooling, also when the channels are partitioned. *)
Theorem C30_pooling_kernels (R : CRing) w (h : (list Z -> R) -> R) :
  (forall g g', (forall t, valid_index (w_kernel w) t -> g t = g' t) -> h g = h g') ->
  kernel_local w (pool_kernel h) (fun c => c) /\ per_channel (pool_kernel h) (fun c => c).
Proof.
  intros Hh. split.
  - intros c c' g g' E Hc. apply Hh. intros t Ht. apply E; auto.
  - split; auto. exists h. reflexivity.
Qed.

(** * Examples

    A convolution with kernel 3, padding 1, two input and two output channels and a
    bias on workers 10, 11 and 12 (blocks 4, 3 and 3); worker 9 takes no part.
    Only worker 10 has the parameters. *)
Definition cv_P : part := mkpart 0 [10; 11; 12] [1; 1; 3].
Definition cv_world : list Z := [9; 10; 11; 12].
Definition cv_L : layout := [[1]; [2]; [4; 3; 3]].
Definition cv_w : window := mkwindow [3] [1] [1] [1].
Definition cv_G : tensor Zring := @mkt Zring [1; 2; 10] (fun i => nth 2 i 0 * nth 2 i 0 + 100 * nth 1 i 0).
Definition cv_weight (v : Z) : tensor Zring :=
  if v =? 10 then @mkt Zring [2; 2; 3] (fun i => 1 + 2 * nth 0 i 0 - nth 1 i 0 + nth 2 i 0) else @mkt Zring [0] (fun _ => 0).
Definition cv_bias (v : Z) : tensor Zring :=
  if v =? 10 then @mkt Zring [2] (fun i => 7 + nth 0 i 0) else @mkt Zring [0] (fun _ => 0).
Definition cv_f : @kernel Zring := root_conv cv_P cv_w 2 1 true cv_weight cv_bias.
Definition cv_Y : tensor Zring := @mkt Zring [1; 2; 10] (fun i =>
  match i with
  | b' :: c' :: o => cv_f 2 c' (fun ch t => value_at cv_G 0 (b' :: ch ::
      vec 1 (fun j => nth j [1] 0 * nth j o 0 - nth j [1] 0 + nth j [1] 0 * nth j t 0)))
  | _ => 0
  end).
Definition cv_x (v : Z) : tensor Zring := if v =? 9 then @mkt Zring [5] (fun _ => 9) else block cv_L [0; 0; v - 10] cv_G.
Definition cv_shape (v : Z) : list Z := tshape (cv_x v).
Definition cv_arg := halo_argument cv_P cv_w (0 : car Zring) cv_shape cv_x.
Definition cv_plan := halo_plan cv_P cv_w cv_shape.
Definition cv_zero : Z -> @hst Zring := fun _ =>
  mkhst (@mkt Zring [] (fun _ => 0)) (@mkt Zring [] (fun _ => 0)) (@mkt Zring [] (fun _ => 0)) [].
Definition cv_run (v : Z) : tensor Zring :=
  last (h_hist (sync_rounds (history_rounds cv_P (fun v => tshape (cv_arg v)) (fun v => u_recv (cv_plan v))
                               (fun v => u_send (cv_plan v)) [HForward cv_arg]) cv_zero v)) (@mkt Zring [] (fun _ => 0)).
Definition cv_out (v : Z) : result (tensor Zring) :=
  conv_forward cv_P cv_w 2 1 true (fun _ => 0) (fun _ => true) cv_weight cv_bias cv_shape cv_x cv_run v.

Lemma cv_workers idx v : worker_at cv_P idx v -> idx = [0; 0; v - 10] /\ (v = 10 \/ v = 11 \/ v = 12).
Proof.
  intros [Hi Hv]. inversion Hi as [|? a ? t Ha Ht]; subst. inversion Ht as [|? b ? t' Hb Ht']; subst.
  inversion Ht' as [|? c ? t'' Hc Ht'']; subst. inversion Ht''; subst.
  assert (a = 0) by lia; assert (b = 0) by lia; subst.
  assert (c = 0 \/ c = 1 \/ c = 2) as [-> |[-> | ->]] by lia; cbn in Hv; inv Hv; auto 6.
Qed.

Example C30_convolutions_example :
  feature_given cv_world cv_P cv_L cv_w /\ nth 1 (p_shape cv_P) 0 = 1 /\
  conv_parameters cv_P cv_w 2 2 1 true cv_weight cv_bias /\
  is_sequential cv_f (fun _ => 2) (0 : car Zring) cv_w cv_G cv_Y /\ holds_blocks cv_P cv_L cv_G cv_x /\
  common cv_L cv_w (out_counts cv_G cv_Y) /\ within cv_L cv_w (out_counts cv_G cv_Y) /\
  map (tat cv_Y) (indices [1; 2; 10]) =
    [312; 330; 365; 418; 489; 578; 685; 810; 953; 414; 717; 951; 1022; 1135; 1290; 1487; 1726; 2007; 2330; 1395] /\
  map (fun v => tshape (val (cv_out v))) [9; 10; 11; 12] = [[5]; [1; 2; 4]; [1; 2; 3]; [1; 2; 3]] /\
  map (tat (val (cv_out 11))) (indices [1; 2; 3]) = [489; 578; 685; 1290; 1487; 1726].
Proof.
  assert (A : feature_given cv_world cv_P cv_L cv_w).
  { split; [repeat constructor; simpl; lia|]. split; [simpl; tauto|].
    split; [repeat split; try discriminate; repeat constructor; simpl; lia|].
    split; [repeat constructor; lia|]. split; [reflexivity|]. split; [reflexivity|].
    repeat split; repeat constructor; lia. }
  assert (B : is_sequential cv_f (fun _ => 2) (0 : car Zring) cv_w cv_G cv_Y).
  { exists 1, 2, [10], [10]. split; [reflexivity|]. split; [reflexivity|].
    split.
    { split; [reflexivity|]. intros [|j] Hj; cbn in Hj; [|lia]. cbn. split; [lia|]. unfold window_fits. intros. lia. }
    split; [lia|]. split; [lia|]. split; [repeat constructor|]. reflexivity. }
  assert (C : holds_blocks cv_P cv_L cv_G cv_x).
  { split; [reflexivity|]. intros idx v Hv. destruct (cv_workers _ _ Hv) as [-> [-> |[-> | ->]]]; apply teq_refl. }
  assert (D : common cv_L cv_w (out_counts cv_G cv_Y)).
  { intros [|[|[|j]]] Hj; cbn in Hj; [left; reflexivity|left; reflexivity| |lia].
    right. left. split; [reflexivity|]. split; [reflexivity|]. split; [vm_compute; discriminate|].
    repeat constructor; vm_compute; discriminate. }
  split; [exact A|]. split; [reflexivity|]. split.
  { split; [lia|]. split; [lia|]. split; [exists 2; lia|]. split; [exists 2; lia|]. split; [reflexivity|].
    split; [reflexivity|]. intros v Hv. unfold cv_weight, cv_bias. destruct (v =? 10); split; repeat constructor; lia. }
  split; [exact B|]. split; [exact C|]. split; [exact D|].
  split; [exact (common_all _ _ _ _ _ _ _ _ _ _ _ A B C D)|]. repeat split; vm_compute; reflexivity.
Qed.

(** Summing pool (kernel 3, stride 2, padding 1) over 2x4 workers with channels
    split as well: not among the common layers. *)
Definition pl_P : part := mkpart 0 [0; 1; 2; 3; 4; 5; 6; 7] [1; 2; 4].
Definition pl_L : layout := [[2]; [2; 1]; [4; 4; 3; 3]].
Definition pl_w : window := mkwindow [3] [2] [1] [1].
Definition pl_f : @kernel Zring := pool_kernel (fun g => sumf (indices [3]) g).
Definition pl_G : tensor Zring := @mkt Zring [2; 3; 14] (fun i => 1000 * nth 0 i 0 + 100 * nth 1 i 0 + nth 2 i 0).
Definition pl_Y : tensor Zring := @mkt Zring [2; 3; 7] (fun i =>
  match i with
  | b' :: c' :: o => pl_f 3 c' (fun ch t => value_at pl_G 0 (b' :: ch ::
      vec 1 (fun j => nth j [2] 0 * nth j o 0 - nth j [1] 0 + nth j [1] 0 * nth j t 0)))
  | _ => 0
  end).
Definition pl_x (v : Z) : tensor Zring := block pl_L [0; v / 4; v mod 4] pl_G.
Definition pl_shape (v : Z) : list Z := tshape (pl_x v).
Definition pl_arg := halo_argument pl_P pl_w (0 : car Zring) pl_shape pl_x.
Definition pl_plan := halo_plan pl_P pl_w pl_shape.
Definition pl_run (v : Z) : tensor Zring :=
  last (h_hist (sync_rounds (history_rounds pl_P (fun v => tshape (pl_arg v)) (fun v => u_recv (pl_plan v))
                               (fun v => u_send (pl_plan v)) [HForward pl_arg]) cv_zero v)) (@mkt Zring [] (fun _ => 0)).
Definition pl_out (v : Z) : result (tensor Zring) := feature_output pl_P pl_w pl_f (fun c => c) pl_shape pl_x pl_run v.

Example C30_pooling_example :
  feature_given pl_P.(p_ranks) pl_P pl_L pl_w /\
  kernel_local pl_w pl_f (fun c => c) /\ per_channel pl_f (fun c => c) /\
  is_sequential pl_f (fun c => c) (0 : car Zring) pl_w pl_G pl_Y /\ holds_blocks pl_P pl_L pl_G pl_x /\
  within pl_L pl_w (out_counts pl_G pl_Y) /\
  map (fun v => tshape (val (pl_out v))) [0; 1; 2; 3; 4; 5; 6; 7] =
    [[2; 2; 2]; [2; 2; 2]; [2; 2; 2]; [2; 2; 1]; [2; 1; 2]; [2; 1; 2]; [2; 1; 2]; [2; 1; 1]] /\
  map (tat (val (pl_out 5))) (indices [2; 1; 2]) = map (tat pl_Y) [[0; 2; 2]; [0; 2; 3]; [1; 2; 2]; [1; 2; 3]].
Proof.
  split.
  { split; [repeat constructor; simpl; lia|]. split; [auto|].
    split; [repeat split; try discriminate; repeat constructor; simpl; lia|].
    split; [repeat constructor; lia|]. split; [reflexivity|]. split; [reflexivity|].
    repeat split; repeat constructor; lia. }
  destruct (C30_pooling_kernels Zring pl_w (fun g => sumf (indices [3]) g)) as [K1 K2].
  { intros g g' E. apply sumf_ext. intros t Ht. apply E. now apply in_indices. }
  split; [exact K1|]. split; [exact K2|]. split.
  { exists 2, 3, [14], [7]. split; [reflexivity|]. split; [reflexivity|].
    split.
    { split; [reflexivity|]. intros [|j] Hj; cbn in Hj; [|lia]. cbn. split; [lia|]. unfold window_fits. intros. lia. }
    split; [lia|]. split; [lia|]. split; [repeat constructor|]. reflexivity. }
  split.
  { split; [reflexivity|]. intros idx v [Hi Hv].
    inversion Hi as [|? a ? t Ha Ht]; subst. inversion Ht as [|? b ? t' Hb Ht']; subst.
    inversion Ht' as [|? c ? t'' Hc Ht'']; subst. inversion Ht''; subst.
    assert (a = 0) by lia; subst. assert (b = 0 \/ b = 1) as [-> | ->] by lia;
    assert (c = 0 \/ c = 1 \/ c = 2 \/ c = 3) as [-> |[-> |[-> | ->]]] by lia; cbn in Hv; inv Hv; apply teq_refl. }
  split.
  { intros [|[|[|j]]] Hj; cbn in Hj; [| | |lia].
    - intros [|i] Hi; vm_compute in Hi; [|lia]. repeat split; intros; vm_compute; (reflexivity || discriminate).
    - intros [|[|i]] Hi; vm_compute in Hi; [| |lia]; repeat split; intros; vm_compute; (reflexivity || discriminate).
    - intros [|[|[|[|i]]]] Hi; vm_compute in Hi; [| | | |lia]; repeat split; intros; vm_compute; (reflexivity || discriminate). }
  split; vm_compute; reflexivity.
Qed.

Print Assumptions C30_feature_layers_partial.
Print Assumptions C30_convolutions_partial.
Print Assumptions C30_common_layers_partial.
Print Assumptions C30_common_convolutions_partial.
Print Assumptions C30_pooling_kernels.
Print Assumptions C30_all_parameters_refuted.
