(** All gradients of the generally-distributed convolution: C55. *)

From Verif Require Import Prelude SpecIndex SpecLayout SpecPartition SpecHalo ModelSlicing ModelDecomposition ModelPartition ProofSlicing
  ProofDecomposition ProofPartition Ring Tensor ModelCollectives ProofCollectives PropCollectives PropExchange Blocks ModelUtilities PropUtilities P2P
  Rounds ModelRepartition ProofRepartition ProofTransfer PropRepartition ModelHaloMixin ProofHaloMixin PropHaloMixin ModelHaloExchange PropHaloExchange
  ModelFeatureLayer SpecFeature ProofFeatureLayer PropFeatureLayer PropFeatureConv PropFeatureCommon ModelLinear ProofWork PropLinear ModelConv ProofConv
  ProofConvParts PropConv PropConvChannel PropConvGeneral ModelGradients ProofGradients PropUpsampleGrad ModelFeatureGrad SpecFeatureGrad
  ProofFeatureGrad PropFeatureGrad PropConvGrad ModelWorkGrad ProofWorkGrad ModelChannelGrad PropChannelGrad ModelGeneralGrad ProofGeneralGrad.
Local Open Scope Z_scope.

Definition C55_statement : Prop :=
  forall (R : CRing) (world : list Z) (Px Py Pw : part) (co ci : Z) (S : list Z) (L : layout) (w : window) (groups cin cout : Z)
    (W : tensor R) (bias : option (tensor R)) (X Y dY : tensor R) (weight bias_of x dy : Z -> tensor R) dt dt' dtw dtb rg rg' rgw rgb,
  conv_layer Px Py Pw co ci S w groups cin cout W bias X Y ->
  plain groups Px Py Pw ->
  conv_parameters_held Pw co ci w cout W bias weight bias_of ->
  feature_given world Px L w -> holds_blocks Px L X x -> others_pass Px Py Pw x ->
  ((1 < length (p_ranks Pw))%nat -> within L w (out_counts X Y)) ->
  tshape dY = tshape Y -> holds_blocks Py (balanced (tshape Y) (p_shape Py)) dY dy -> others_pass Py Px Pw dy ->
  let shape v := tshape (x v) in
  let arg := halo_argument Px w rzero shape x in
  let plan := halo_plan Px w shape in
  let layer := history_rounds Px (fun v => tshape (arg v)) (fun v => u_recv (plan v)) (fun v => u_send (plan v)) in
  let delivered exchanged back :=
    conv_gradients_delivered Px Py Pw co ci L w groups cout W bias X dY dy
      (general_conv_backward Px Py Pw w groups (has_bias bias) dt dt' dtw dtb rg rg' rgw rgb weight bias_of shape x exchanged dy back)
      (general_weight_gradient Px Py Pw w groups (has_bias bias) dt dt' dtw dtb rg rg' rgw rgb weight bias_of shape x exchanged dy)
      (general_bias_gradient Px Py Pw w groups (has_bias bias) dt dt' dtw dtb rg rg' rgw rgb weight bias_of shape x exchanged dy) in
  (* a single worker has no halo layer *)
  (length (p_ranks Pw) = 1%nat -> forall exchanged back, delivered exchanged back) /\
  ((1 < length (p_ranks Pw))%nat ->
     halo_ready world Px w rzero x /\
     forall pre init eager gf, same_calls Px arg pre -> ends world (layer (pre ++ [HForward arg])) init eager gf ->
       let cotangent := general_cotangent Px Py Pw w groups (has_bias bias) dt dt' dtw dtb rg rg' rgw rgb weight bias_of shape x (halo_result gf) dy in
       let back := general_back_argument Px Py Pw w groups (has_bias bias) dt dt' dtw dtb rg rg' rgw rgb weight bias_of shape x (halo_result gf) dy in
       (forall v, cotangent v = Ok (back v)) /\
       forall pre' init' eager' gb, same_calls Px arg pre' -> ends world (layer (pre' ++ [HBackward back])) init' eager' gb ->
         delivered (halo_result gf) (halo_result gb)).

(** The workers that store a bias. *)
Lemma all_zero_repeat c : all_zero c = true -> c = repeat 0 (length c).
Proof.
  unfold all_zero. induction c as [|a c IH]; [reflexivity|]. cbn [forallb length repeat]. rewrite andb_true_iff, Z.eqb_eq. intros [-> A]. now rewrite <- IH.
Qed.
Lemma bias_holders Px Py Pw co ci S : conv_partitions Px Py Pw co ci S -> forall w, length S = length (w_kernel w) -> forall v,
  is_active (p_ranks (sub_part (false :: true :: repeat true (length (w_kernel w))) Pw)) v = true ->
  exists j, worker_at Pw (j :: 0 :: repeat 0 (length (w_kernel w))) v.
Proof.
  intros HP w HS v Ha. pose proof (c_pw _ _ _ _ _ _ HP) as Hw. pose proof (c_sw _ _ _ _ _ _ HP) as Es.
  apply is_active_spec in Ha. apply sub_active in Ha as (idx & Hv & Hz); auto.
  2:{ rewrite Es. cbn [length]. now rewrite repeat_length, HS. }
  destruct (pw_idx _ _ _ _ _ _ HP _ (proj1 Hv)) as (j & i & s & -> & Hj & Hi & Hs).
  rewrite !mask_cons in Hz. apply andb_true_iff in Hz as [_ Hz]. apply andb_true_iff in Hz as [Hz1 Hz2]. apply Z.eqb_eq in Hz1. subst i.
  assert (Ls : length s = length (w_kernel w)) by (apply valid_index_length in Hs; congruence).
  rewrite mask_true in Hz2 by exact Ls. apply all_zero_repeat in Hz2. rewrite Ls in Hz2. exists j. now rewrite <- Hz2.
Qed.

(** * Several workers *)
Section Several.
  Context {R : CRing}.
  Add Ring R_general : (rth R).
  Variables (world : list Z) (Px Py Pw : part) (co ci : Z) (S : list Z) (L : layout) (w : window) (groups cin cout : Z).
  Variables (W : tensor R) (bias : option (tensor R)) (X Y dY : tensor R) (weight bias_of x dy : Z -> tensor R).
  Variables (dt dt' dtw dtb : Z -> Z) (rg rg' rgw rgb : Z -> bool).
  Hypothesis HL : conv_layer Px Py Pw co ci S w groups cin cout W bias X Y.
  Hypothesis HE : plain groups Px Py Pw.
  Hypothesis HH : conv_parameters_held Pw co ci w cout W bias weight bias_of.
  Hypothesis HG : feature_given world Px L w.
  Hypothesis HX : holds_blocks Px L X x.
  Hypothesis HO : others_pass Px Py Pw x.
  Hypothesis ED : tshape dY = tshape Y.
  Hypothesis HD : holds_blocks Py (balanced (tshape Y) (p_shape Py)) dY dy.
  Hypothesis HOd : others_pass Py Px Pw dy.
  Variables (b : Z) (xs ys : list Z).
  Hypothesis EX : tshape X = b :: cin :: xs.
  Hypothesis Lxs : length xs = length (w_kernel w).
  Hypothesis EY : tshape Y = b :: cout :: ys.
  Hypothesis Hwi : within L w (b :: cin :: ys).
  Hypothesis Hmany : length (p_ranks Pw) <> 1%nat.
  Let nk := length (w_kernel w).
  Let shape v := tshape (x v).
  Let arg := halo_argument Px w rzero shape x.
  Let plan := halo_plan Px w shape.
  Let rounds := history_rounds (R := R) Px (fun v => tshape (arg v)) (fun v => u_recv (plan v)) (fun v => u_send (plan v)).
  Let gp := 0 :: 0 :: w_padding w.
  Let Lp := pad_layout L gp.
  Let H := feature_halos L w.
  Let ny := b :: cin :: ys.

  Lemma sg_parts : conv_partitions Px Py Pw co ci S. Proof. apply HL. Qed.
  Lemma sg_seq : counts xs w ys /\ 0 < b /\ 0 < cin /\ Forall (fun n => 0 < n) ys /\ length ys = nk.
  Proof. exact (h_seq Px Py Pw co ci S w groups cin cout W bias X Y HL b xs ys EX Lxs EY). Qed.
  Lemma sg_facts : 0 < co <= cout /\ 0 < ci <= cin /\ 0 < groups /\ (groups | cout) /\ (groups | cin) /\
    (groups = 1 \/ co = 1 /\ ci = 1) /\ tshape W = cout :: cin / groups :: w_kernel w.
  Proof.
    clear - HL HE. pose proof (k_pos Px Py Pw co ci S w groups cin cout W bias X Y HL) as (P1 & P2 & _).
    apply (h_facts Px Py Pw co ci S w groups cin cout W bias X Y HL HE 0 0); lia.
  Qed.
  Lemma sg_window : window_ok (length (w_kernel w)) w. Proof. apply HL. Qed.
  Lemma sg_len : length S = nk. Proof. apply HL. Qed.
  Lemma sg_pos : pos_shape S. Proof. exact (proj2 (proj2 (c_pos _ _ _ _ _ _ sg_parts))). Qed.
  Lemma sg_y0 : nonneg_shape ys.
  Proof. destruct sg_seq as (_ & _ & _ & Hys & _). eapply Forall_impl; [|exact Hys]. cbn. lia. Qed.

  Lemma sg_shapes idx v : worker_at Px idx v -> tshape (x v) = block_shape L idx.
  Proof. intros Hv. destruct HX as [_ B]. apply (B idx v Hv). Qed.
  Lemma sg_planned : planned Px Lp H (fun v => tshape (arg v)) (fun v => u_recv (plan v)) (fun v => u_send (plan v)).
  Proof. exact (ow_planned world Px L w HG ny x sg_shapes). Qed.
  Lemma sg_counts : counts (layout_shape L) (full_window (length L) w) ny.
  Proof.
    destruct sg_seq as (Hcnt & Hb & Hc & Hys & _). pose proof HL as (_ & _ & _ & _ & _ & _ & _ & _ & _ & _ & _ & HY).
    destruct HY as (b0 & c0 & xs0 & ys0 & E1 & E2 & C0 & P1 & P2 & P3 & V0). rewrite EX in E1. rewrite EY in E2.
    inversion E1; subst b0 c0 xs0. inversion E2; subst ys0.
    exact (g_counts world Px L w _ rzero X Y x HG b cin xs ys EX C0 P1 P2 V0 HX).
  Qed.
  Lemma sg_ny : Forall (fun n => 0 < n) ny.
  Proof. destruct sg_seq as (_ & Hb & Hc & Hys & _). unfold ny. repeat (constructor; auto). Qed.

  (** ** The blocks *)
  Definition out_block (j : Z) (s : list Z) (T : tensor R) : tensor R := block (balanced (tshape Y) (1 :: co :: S)) (0 :: j :: s) T.

  Lemma ob_shape T j s : 0 <= j < co -> tshape (out_block j s T) = b :: subshape1 co j cout :: block_shape (balanced ys S) s.
  Proof. intros Hj. unfold out_block. cbn [block tshape]. rewrite EY, !bal_shape_cons by lia. now rewrite unit_sub. Qed.
  Lemma ob_part T j s : 0 <= j < co -> valid_index S s -> tshape (out_block j s T) = part_shape co S w cout b ys j s.
  Proof.
    intros Hj Hs. destruct sg_facts as (F1 & F2 & F3 & F4 & F5 & F6 & F7). assert (HY := HL). destruct HY as (_ & HS & _ & _ & _ & _ & _ & _ & _ & _ & _ & HY).
    symmetry. exact (part_block_shape co S w groups cin cout b ys W X bias F3 Y xs EX Lxs EY HY sg_pos HS j s Hj Hs).
  Qed.
  Lemma ob_value T j s b' c o : 0 <= j < co ->
    tat (out_block j s T) (b' :: c :: o) = tat T (b' :: start1 co j cout + c :: vadd (block_lo (balanced ys S) s) o).
  Proof.
    intros Hj. unfold out_block. cbn [block tat]. rewrite EY, !bal_lo_cons by lia. rewrite start1_0 by lia. unfold vadd. cbn [map2].
    now rewrite Z.add_0_l.
  Qed.
  Lemma ob_vec s : valid_index S s -> block_shape (balanced ys S) s = vec nk (fun k => subshape1 (nth k S 0) (nth k s 0) (nth k ys 0)).
  Proof.
    intros Hs. destruct sg_facts as (F1 & _). pose proof (ob_part Y 0 s ltac:(lia) Hs) as E. rewrite ob_shape in E by lia.
    unfold part_shape in E. injection E as E. exact E.
  Qed.
  Lemma ob_read s o t : valid_index S s -> length o = nk ->
    read_point S w ys s o t = seen_point (length xs) w (vadd (block_lo (balanced ys S) s) o) t.
  Proof.
    intros Hs Lo. destruct sg_facts as (F1 & F2 & F3 & F4 & F5 & F6 & F7). assert (HY := HL). destruct HY as (_ & HS & _ & _ & _ & _ & _ & _ & _ & _ & _ & HY).
    rewrite (part_block_lo S w groups cin cout b ys W X bias Y xs EX Lxs EY HY sg_pos HS s o Hs Lo).
    unfold read_point, seen_point. rewrite Lxs. apply list_eq_nth with (d := 0); rewrite !vec_length; [auto|]. intros k Hk.
    rewrite !vec_nth by auto. lia.
  Qed.

  (** ** What a worker reads *)
  Definition xsh (i : Z) (s : list Z) : list Z := compute_nd_slice_shape (slice_of L w (0 :: i :: s)).
  Definition reads (U sl : tensor R) (i : Z) (s : list Z) : Prop :=
    exists es, tshape sl = b :: subshape1 ci i cin :: es /\ length es = nk /\
      (forall k, (k < nk)%nat ->
         out_extent (nth k es 0) (nth k (w_kernel w) 0) (nth k (w_stride w) 0) 0 (nth k (w_dilation w) 0) =
         subshape1 (nth k S 0) (nth k s 0) (nth k ys 0) /\ 0 < subshape1 (nth k S 0) (nth k s 0) (nth k ys 0)) /\
      nonneg_shape (tshape sl) /\
      forall b' ch o t, 0 <= b' < b -> 0 <= ch < subshape1 ci i cin ->
        valid_index (vec nk (fun k => subshape1 (nth k S 0) (nth k s 0) (nth k ys 0))) o -> valid_index (w_kernel w) t ->
        valid_index (tshape sl) (b' :: ch :: window_point w o t) /\
        tat sl (b' :: ch :: window_point w o t) = value_at U rzero (b' :: start1 ci i cin + ch :: read_point S w ys s o t).

  Lemma sg_windows (U : tensor R) (xh : Z -> tensor R) sh recv send pre init eager g i s v :
    tshape U = tshape X -> holds_blocks Px L U xh ->
    let shp := fun v => tshape (xh v) in
    planned Px Lp H sh recv send -> Forall (call_ok Px Lp H) pre ->
    ends world (history_rounds (R := R) Px sh recv send (pre ++ [HForward (halo_argument Px w rzero shp xh)])) init eager g ->
    worker_at Px (0 :: i :: s) v ->
    let sl := general_input w Px shp xh (halo_result g) v in
    reads U sl i s /\ tshape sl = xsh i s /\ tshape (halo_result g v) = padded_shape Lp H (0 :: i :: s) /\
    sl = read_slice (halo_result g v) (slice_of L w (0 :: i :: s)).
  Proof.
    intros EU HU shp Hpl Hpre Hend Hv sl. destruct sg_seq as (Hcnt & Hb & Hc & Hys & Ly). rewrite EX in EU.
    pose proof (exchanged_shape world Px L w rzero U xh HG b cin xs ys EU Hcnt Hb Hc Hys HU Hwi sh recv send pre init eager g _ v Hpl Hpre Hend Hv) as Es.
    assert (Esl : sl = read_slice (halo_result g v) (slice_of L w (0 :: i :: s))).
    { unfold sl, general_input.
      rewrite (fg_setup world Px L w HG shp (fun idx v Hv => proj1 (proj2 HU idx v Hv)) _ v Hv). cbn [u_needed]. unfold slice_tensor. now rewrite Es. }
    split; [|split; [|split]]; auto; [|rewrite Esl; reflexivity].
    destruct (needed_windows_by world Px L w rzero U xh HG b cin xs ys EU Hcnt Hb Hc Hys HU Hwi sh recv send pre init eager g _ v Hpl Hpre Hend Hv)
      as (es & E & Le & Oe & Ns & Ve). fold shp sl in E, Ns, Ve.
    unfold window_read in Ve. rewrite (c_sx _ _ _ _ _ _ sg_parts) in E, Oe, Ve.
    cbn [nth Nat.add] in E, Oe, Ve. rewrite unit_sub in E, Ve. rewrite start1_0 in Ve by lia.
    exists es. split; [exact E|]. split; [exact Le|]. split; [exact Oe|]. split; [exact Ns|exact Ve].
  Qed.

  (** ** One worker's torch layer *)
  Definition back_w (j i : Z) (s : list Z) : tensor R :=
    sliding_backward (conv_coefficients (subshape1 co j cout) groups (weight_block co ci w W j i)) w (xsh i s) (out_block j s dY).

  Lemma sg_wt j i wt : 0 <= j < co -> 0 <= i < ci -> teq wt (weight_block co ci w W j i) ->
    tshape wt = subshape1 co j cout :: subshape1 ci i cin / groups :: w_kernel w /\
    subshape1 ci i cin / groups = subshape1 ci i (cin / groups) /\
    0 < subshape1 co j cout /\ (groups | subshape1 co j cout).
  Proof.
    intros Hj Hi Hwt. destruct sg_facts as (F1 & F2 & F3 & F4 & F5 & F6 & F7).
    pose proof (local_groups co ci w groups cin cout W F2 F3 F4 F5 F6 F7 i Hi) as Eg.
    destruct (local_cout co ci w groups cin cout W F1 F3 F4 F5 F6 F7 j Hj) as [C1 C2].
    split; [|split; [|split]]; auto. rewrite Eg. destruct Hwt as [E _]. rewrite E.
    exact (weight_block_shape co ci w groups cin cout W F7 j i Hj Hi).
  Qed.

  (** The layer without bias on any input. *)
  Definition seq_of (U : tensor R) : tensor R := sequential w (conv_kernel w cout groups W None) (fun _ => cout) b cin xs ys U.
  Lemma seq_is U : tshape U = tshape X -> is_sequential (conv_kernel w cout groups W None) (fun _ => cout) rzero w U (seq_of U).
  Proof.
    intros EU. destruct sg_seq as (Hcnt & Hb & Hc & Hys & Ly). rewrite EX in EU.
    exists b, cin, xs, ys. split; [auto|]. split; [reflexivity|]. do 4 (split; [auto|]). intros b' c' o Ho. reflexivity.
  Qed.
  Lemma seq_layer U : tshape U = tshape X -> conv_layer Px Py Pw co ci S w groups cin cout W None U (seq_of U).
  Proof.
    intros EU. pose proof (seq_is U EU) as Q. destruct HL as (A1 & A2 & A3 & A4 & A5 & A6 & A7 & A8 & A9 & A10 & A11 & A12).
    do 9 (split; [assumption|]). split; [exact I|]. split; [now rewrite EU|exact Q].
  Qed.

  Lemma worker_adjoint U sl j i s : tshape U = tshape X -> 0 <= j < co -> 0 <= i < ci -> valid_index S s ->
    reads U sl i s -> tshape sl = xsh i s ->
    inner (part_out co ci S w groups cin cout b ys W U None j i s) (out_block j s dY) = inner sl (back_w j i s).
  Proof.
    intros EU Hj Hi Hs (es & E & Le & Oe & Ns & Ve) Ex.
    destruct (sg_wt j i (weight_block co ci w W j i) Hj Hi (teq_refl _)) as (Sw & Eg & C1 & C2).
    destruct (sliding_part Px Py Pw co ci S w groups cin cout W None U (seq_of U) (seq_layer U EU) HE b xs ys Lxs j i
                (weight_block co ci w W j i) None Hj Hi (teq_refl _)
                ltac:(destruct (i =? 0); exact I) s es sl E Le Oe Ve sl (teq_refl _)) as (t' & Et & Tt).
    destruct sg_facts as (F1 & F2 & F3 & F4 & F5 & F6 & F7).
    rewrite <- (inner_teq_l t' _ _ Tt). unfold torch_conv in Et. rewrite Sw in Et. cbn [nth] in Et.
    destruct (_ =? _) in Et; [|discriminate].
    unfold back_w. rewrite <- Ex.
    apply (sliding_adjoint (conv_coefficients (subshape1 co j cout) groups (weight_block co ci w W j i))
             (conv_kernel w (subshape1 co j cout) groups (weight_block co ci w W j i) None) (fun _ => subshape1 co j cout)); auto.
    - now apply C51_convolution_kernels.
    - exact sg_window.
    - rewrite E. cbn [length]. now rewrite Le.
    - destruct Tt as [-> _]. now apply ob_part.
  Qed.

  (** The parts of all workers together. *)
  Lemma parts_inner U : tshape U = tshape X ->
    sumf (zrange ci) (fun i => sumf (indices S) (fun s => sumf (zrange co) (fun j =>
      inner (part_out co ci S w groups cin cout b ys W U None j i s) (out_block j s dY)))) = inner (seq_of U) dY.
  Proof.
    intros EU. destruct sg_seq as (Hcnt & Hb & Hc & Hys & Ly). destruct sg_facts as (F1 & F2 & F3 & F4 & F5 & F6 & F7).
    assert (ES : tshape (seq_of U) = tshape Y) by (rewrite EY; reflexivity).
    assert (Pp : pos_shape (1 :: co :: S)) by (constructor; [lia|]; constructor; [lia|exact sg_pos]).
    assert (Pn : nonneg_shape (tshape Y)) by (rewrite EY; constructor; [lia|]; constructor; [lia|exact sg_y0]).
    assert (Pl : length (tshape Y) = length (1 :: co :: S)) by (rewrite EY; cbn [length]; rewrite sg_len, Ly; reflexivity).
    rewrite (inner_blocks (balanced (tshape Y) (1 :: co :: S)) (balanced_ok _ _ Pp Pn) (seq_of U) dY)
      by (rewrite balanced_shape; auto).
    rewrite balanced_workers by auto. rewrite range_sum, sum_cons. change (zrange 1) with [0]. rewrite sumf_cons, sumf_nil, radd_0_r, sum_cons.
    rewrite sumf_exchange.
    assert (EI : forall s, sumf (zrange ci) (fun i => sumf (zrange co) (fun j => inner (part_out co ci S w groups cin cout b ys W U None j i s) (out_block j s dY))) =
                           sumf (zrange co) (fun j => sumf (zrange ci) (fun i => inner (part_out co ci S w groups cin cout b ys W U None j i s) (out_block j s dY))))
      by (intros s; apply sumf_exchange).
    transitivity (sumf (indices S) (fun s => sumf (zrange co) (fun j => inner (block (balanced (tshape Y) (1 :: co :: S)) (0 :: j :: s) (seq_of U)) (out_block j s dY)))).
    - apply sumf_ext. intros s Hs. apply in_indices in Hs. rewrite EI. apply sumf_ext. intros j Hj. apply in_zrange in Hj.
      unfold inner. cbn [part_out tshape]. rewrite sumf_exchange.
      assert (Ep : tshape (block (balanced (tshape Y) (1 :: co :: S)) (0 :: j :: s) (seq_of U)) = part_shape co S w cout b ys j s) by (apply (ob_part (seq_of U)); auto).
      rewrite Ep. apply sumf_ext. intros q Hq. apply in_indices in Hq. rewrite sumf_mul_r. f_equal.
      pose proof (seq_is U EU) as HYu. rewrite <- ES.
      apply (parts_sum co ci S w groups cin cout b ys W U None F1 F2 F3 F4 F6 F7 I (seq_of U) xs); auto; [congruence|exact sg_pos|exact sg_len].
    - rewrite sumf_exchange. reflexivity.
  Qed.

  (** ** The backward pass up to the halo layer *)
  Section Forwarded.
  Variables (pre : list (@call R)) (init : Z -> @hst R) (eager : Z -> Z -> Z -> nat -> bool) (gf : @gst (@hst R) (tensor R)).
  Hypothesis Hpre : same_calls Px arg pre.
  Hypothesis Hend : ends world (rounds (pre ++ [HForward arg])) init eager gf.
  Let inp := general_input w Px shape x (halo_result gf).
  Let local := general_local Pw w groups (has_bias bias) dtw dtb rgw rgb weight bias_of.
  Let ib := general_input_back Pw w groups dtw rgw weight.

  Lemma inp_facts i s v : worker_at Px (0 :: i :: s) v ->
    reads X (inp v) i s /\ tshape (inp v) = xsh i s /\ tshape (halo_result gf v) = padded_shape Lp H (0 :: i :: s).
  Proof.
    intros Hv.
    destruct (sg_windows X x _ _ _ pre init eager gf i s v eq_refl HX sg_planned (ow_calls world Px L w HG ny x sg_shapes pre Hpre) Hend Hv)
      as (A & B & C & _). auto.
  Qed.
  Lemma inp_other v : ~ In v (p_ranks Px) -> inp v = x v.
  Proof. intros Hv. unfold inp, general_input. now rewrite (fg_inactive Px w shape v Hv). Qed.

  Lemma sg_dy j s v : worker_at Py (0 :: j :: s) v -> teq (dy v) (out_block j s dY).
  Proof. intros Hv. destruct HD as [_ B]. pose proof (B _ v Hv) as Q. rewrite (c_sy _ _ _ _ _ _ sg_parts) in Q. exact Q. Qed.

  Let Py' := y_part Py co S.
  Let out u := match index_in Pw u with
               | Some (j :: i :: s) => part_out co ci S w groups cin cout b ys W X bias j i s
               | _ => x u end.
  Let backs u := match index_in Pw u with
                 | Some (j :: i :: s) => back_w j i s
                 | _ => x u end.
  Let Eo j i s u : worker_at Pw (j :: i :: s) u -> out u = part_out co ci S w groups cin cout b ys W X bias j i s.
  Proof. intros Hu. unfold out. apply index_in_spec in Hu; [|exact (c_pw _ _ _ _ _ _ sg_parts)]. now rewrite Hu. Qed.
  Let Eb j i s u : worker_at Pw (j :: i :: s) u -> backs u = back_w j i s.
  Proof. intros Hu. unfold backs. apply index_in_spec in Hu; [|exact (c_pw _ _ _ _ _ _ sg_parts)]. now rewrite Hu. Qed.

  Let HXx v : In v (p_ranks Px) \/ In v (p_ranks Pw) \/ In v (p_ranks Py') -> nonneg_shape (tshape (inp v)) /\ tshape (inp v) <> [].
  Proof.
    intros Hv. destruct (in_dec Z.eq_dec v (p_ranks Px)) as [Hin|Hin].
    - destruct (worker_at_exists Px v (c_px _ _ _ _ _ _ sg_parts) Hin) as [idx Hi].
      destruct (px_idx _ _ _ _ _ _ sg_parts idx (proj1 Hi)) as (i & s & -> & Hi' & Hs).
      destruct (inp_facts i s v Hi) as ((es & E & _ & _ & N & _) & _). split; auto. rewrite E. discriminate.
    - rewrite inp_other by auto. apply HO; auto. destruct Hv as [?|[?|?]]; auto. contradiction.
  Qed.
  Let HYy v : In v (p_ranks Px) \/ In v (p_ranks Pw) \/ In v (p_ranks Py') -> nonneg_shape (tshape (dy v)) /\ tshape (dy v) <> [].
  Proof.
    intros Hv. destruct (in_dec Z.eq_dec v (p_ranks Py)) as [Hin|Hin]; [|apply HOd; auto; destruct Hv as [?|[?|?]]; auto; contradiction].
    destruct (worker_at_exists Py v (c_py _ _ _ _ _ _ sg_parts) Hin) as [idx Hi].
    destruct (py_idx _ _ _ _ _ _ sg_parts idx (proj1 Hi)) as (j & s & -> & Hj & Hs).
    destruct (sg_dy j s v Hi) as [-> _]. rewrite ob_part by auto.
    destruct sg_facts as (F1 & F2 & F3 & F4 & F5 & F6 & F7).
    apply (part_nonneg co ci S w groups cin cout b ys W X bias) with (Y := Y) (xs := xs) (i := 0); auto; [apply HL|exact sg_pos|exact sg_len].
  Qed.
  Let HLl s u t : paired Px Pw false false s u -> teq t (inp s) -> exists t', local u t = Ok t' /\ teq t' (out u).
  Proof.
    intros Hp Ht. destruct (c_source _ _ _ _ _ _ sg_parts s u Hp) as (j & i & s' & Hu & Hs & Hj & Hi & Hs'). rewrite (Eo _ _ _ _ Hu).
    unfold local, general_local.
    destruct (q_params Px Py Pw co ci S sg_parts w cout W bias weight bias_of sg_len HH dtw dtb rgw rgb j i s' u Hu) as [(wt & Ew & Tw) (bt & Ebb & Tb)].
    rewrite Ew, Ebb. cbn [rbind].
    destruct (inp_facts i s' s Hs) as ((es & E & Le & Oe & Ns & Ve) & _).
    apply (sliding_part Px Py Pw co ci S w groups cin cout W bias X Y HL HE b xs ys Lxs j i wt bt Hj Hi Tw Tb s' es (inp s) E Le Oe Ve t Ht).
  Qed.
  Let HOo u : In u (p_ranks Pw) -> nonneg_shape (tshape (out u)) /\ tshape (out u) <> [].
  Proof.
    intros Hu. destruct (worker_at_exists Pw u (c_pw _ _ _ _ _ _ sg_parts) Hu) as [idx Hi].
    destruct (pw_idx _ _ _ _ _ _ sg_parts idx (proj1 Hi)) as (j & i & s & -> & Hj & Hi' & Hs). rewrite (Eo _ _ _ _ Hi).
    destruct sg_facts as (F1 & F2 & F3 & F4 & F5 & F6 & F7).
    apply part_nonneg with (Y := Y) (xs := xs); auto; [apply HL|exact sg_pos|exact sg_len].
  Qed.
  Let HSs d u u' : paired Py' Pw false false d u -> paired Py' Pw false false d u' -> tshape (out u) = tshape (out u').
  Proof.
    intros Hu Hu'. apply (c_destination _ _ _ _ _ _ sg_parts) in Hu as (j & i & s & Hu & Hd), Hu' as (j' & i' & s' & Hu' & Hd').
    rewrite (Eo _ _ _ _ Hu), (Eo _ _ _ _ Hu'). pose proof (worker_at_fun Py _ _ d (c_py _ _ _ _ _ _ sg_parts) Hd Hd') as E. inversion E. reflexivity.
  Qed.
  Let HGg d u : paired Py' Pw false false d u -> tshape (dy d) = tshape (out u).
  Proof.
    intros Hu. apply (c_destination _ _ _ _ _ _ sg_parts) in Hu as (j & i & s & Hu & Hd). rewrite (Eo _ _ _ _ Hu).
    destruct (py_idx _ _ _ _ _ _ sg_parts _ (proj1 Hd)) as (j' & s' & E & Hj & Hs). inversion E; subst j' s'.
    destruct (sg_dy j s d Hd) as [-> _]. now apply ob_part.
  Qed.
  Let HNn d : In d (p_ranks Py') -> exists u, paired Py' Pw false false d u.
  Proof.
    intros Hin. destruct (worker_at_exists Py d (c_py _ _ _ _ _ _ sg_parts) Hin) as [idx Hd].
    destruct (py_idx _ _ _ _ _ _ sg_parts _ (proj1 Hd)) as (j & s & -> & Hj & Hs). exists (wk Pw (j :: 0 :: s)).
    apply (c_destination _ _ _ _ _ _ sg_parts). exists j, 0, s. split; auto. apply wk_worker; [exact (c_pw _ _ _ _ _ _ sg_parts)|].
    destruct sg_facts as (F1 & F2 & _). apply (pw_ok _ _ _ _ _ _ sg_parts); auto. lia.
  Qed.
  Lemma sg_triple s u d : paired Px Pw false false s u -> paired Py' Pw false false d u ->
    exists j i f, worker_at Pw (j :: i :: f) u /\ worker_at Px (0 :: i :: f) s /\ worker_at Py (0 :: j :: f) d /\ 0 <= j < co /\ 0 <= i < ci /\ valid_index S f.
  Proof.
    intros Hp Hq. destruct (c_source _ _ _ _ _ _ sg_parts s u Hp) as (j & i & f & Hu & Hs & Hj & Hi & Hf).
    apply (c_destination _ _ _ _ _ _ sg_parts) in Hq as (j' & i' & f' & Hu' & Hd).
    pose proof (worker_at_fun Pw _ _ u (c_pw _ _ _ _ _ _ sg_parts) Hu Hu') as E. inversion E; subst. exists j', i', f'. auto 10.
  Qed.
  Let HBb s u d t g : paired Px Pw false false s u -> teq t (inp s) -> paired Py' Pw false false d u -> teq g (dy d) ->
    exists t', ib u t g = Ok t' /\ teq t' (backs u).
  Proof.
    intros Hp Ht Hq Hg. destruct (sg_triple s u d Hp Hq) as (j & i & f & Hu & Hs & Hd & Hj & Hi & Hf). rewrite (Eb _ _ _ _ Hu).
    destruct (q_params Px Py Pw co ci S sg_parts w cout W bias weight bias_of sg_len HH dtw dtb rgw rgb j i f u Hu) as [(wt & Ew & Tw) _].
    unfold ib, general_input_back. rewrite Ew. cbn [rbind]. eexists. split; [reflexivity|].
    destruct (sg_wt j i wt Hj Hi Tw) as (Sw & Eg & C1 & C2). rewrite Sw. cbn [nth].
    destruct (inp_facts i f s Hs) as ((es & E & Le & Oe & Ns & Ve) & Sx & _).
    destruct Ht as [St _]. rewrite St. unfold back_w. rewrite <- Sx, E.
    assert (Tg : teq g (out_block j f dY)) by (eapply teq_trans; [exact Hg|now apply sg_dy]).
    eapply (sliding_back_teq w (subshape1 co j cout) groups _ b (subshape1 ci i cin) es (block_shape (balanced ys S) f)); eauto.
    destruct Tg as [-> _]. now apply ob_shape.
  Qed.
  Let HTt s u : paired Px Pw false false s u -> tshape (backs u) = tshape (inp s).
  Proof.
    intros Hp. destruct (c_source _ _ _ _ _ _ sg_parts s u Hp) as (j & i & f & Hu & Hs & Hj & Hi & Hf). rewrite (Eb _ _ _ _ Hu).
    destruct (inp_facts i f s Hs) as (_ & Sx & _). rewrite Sx. reflexivity.
  Qed.
  Let Fl : bc_flags Py' false false. Proof. left. reflexivity. Qed.

  Definition sent : Z -> result (tensor R) := work_backward Px Pw Py' false false false dt dt' rg rg' local ib inp dy.

  Lemma sent_facts :
    (forall i s v, worker_at Px (0 :: i :: s) v -> exists t, sent v = Ok t /\ tshape t = xsh i s /\
       forall q, valid_index (xsh i s) q -> tat t q = sumf (zrange co) (fun j => tat (back_w j i s) q)) /\
    (forall v, In v (p_ranks Pw) \/ In v (p_ranks Py) -> ~ In v (p_ranks Px) -> exists t n, sent v = Ok t /\ tshape t = [n; 0] /\ 0 <= n).
  Proof.
    destruct (work_back_sum Px Pw Py' false false false dt dt' rg rg' local ib inp dy out backs
                (c_bc _ _ _ _ _ _ sg_parts) (c_rd _ _ _ _ _ _ sg_parts) Fl HXx (fun s u t p _ => HLl s u t p) HOo HSs HYy HGg HNn
                (fun s u d t g a b c e _ => HBb s u d t g a b c e) HTt) as (A & B & _).
    split; [|exact B]. intros i s v Hv.
    destruct (A v _ (worker_at_In _ _ _ Hv) (c_receivers _ _ _ _ _ _ sg_parts i s v Hv)) as (t & E & T1 & T2).
    destruct (inp_facts i s v Hv) as (_ & Sx & _). rewrite Sx in T1. exists t. split; [exact E|]. split; [exact T1|]. intros q Hq.
    rewrite T2 by (now rewrite T1). rewrite sumf_map. apply sumf_ext. intros j Hj. apply in_zrange in Hj.
    destruct (px_idx _ _ _ _ _ _ sg_parts _ (proj1 Hv)) as (i' & s' & E' & Hi & Hs). inversion E'; subst i' s'.
    rewrite (Eb j i s); [reflexivity|]. apply wk_worker; [exact (c_pw _ _ _ _ _ _ sg_parts)|]. now apply (pw_ok _ _ _ _ _ _ sg_parts).
  Qed.

  Let many : Nat.eqb (length (p_ranks Pw)) 1 = false. Proof. now apply Nat.eqb_neq. Qed.
  Let Sv v : serial Pw v = false. Proof. unfold serial. now rewrite many, andb_false_r. Qed.
  Let Mv v : partner_missing Pw v = false. Proof. unfold partner_missing. now rewrite many, andb_false_r. Qed.
  Let Rx v : recast_x GeneralConv Px Pw v = Ok Px. Proof. exact (c_recast_x Px Py Pw co ci S sg_parts GeneralConv v ltac:(discriminate)). Qed.
  Let Ry v : recast_y GeneralConv Py Pw v = Ok Py'. Proof. exact (c_recast_y Px Py Pw co ci S sg_parts GeneralConv v ltac:(discriminate)). Qed.

  Lemma sg_layer bk j i s u : worker_at Pw (j :: i :: s) u ->
    exists v t g, worker_at Px (0 :: i :: s) v /\ teq t (inp v) /\ teq g (out_block j s dY) /\
      general_layer_gradient Px Py Pw w groups (has_bias bias) dt dt' dtw dtb rg rg' rgw rgb weight bias_of shape x (halo_result gf) dy bk u = bk u t g.
  Proof.
    intros Hu.
    destruct (work_layer Px Pw Py' false false false dt dt' rg rg' local inp dy out
                (c_bc _ _ _ _ _ _ sg_parts) (c_rd _ _ _ _ _ _ sg_parts) Fl HXx (fun s u t p _ => HLl s u t p) HOo HSs HYy HGg HNn bk u (worker_at_In _ _ _ Hu))
        as (s' & d & t & g & Hp & Ht & Hq & Hg & E).
    destruct (sg_triple s' u d Hp Hq) as (j' & i' & f & Hu' & Hs & Hd & Hj & Hi & Hf).
    pose proof (worker_at_fun Pw _ _ u (c_pw _ _ _ _ _ _ sg_parts) Hu Hu') as E'. inversion E'; subst j' i' f.
    exists s', t, g. split; [exact Hs|]. split; [exact Ht|]. split; [eapply teq_trans; [exact Hg|now apply sg_dy]|].
    unfold general_layer_gradient. rewrite Rx, Ry. cbn [rbind]. exact E.
  Qed.

  Let cot := general_cotangent Px Py Pw w groups (has_bias bias) dt dt' dtw dtb rg rg' rgw rgb weight bias_of shape x (halo_result gf) dy.
  Let back := general_back_argument Px Py Pw w groups (has_bias bias) dt dt' dtw dtb rg rg' rgw rgb weight bias_of shape x (halo_result gf) dy.

  Lemma cot_member i s v : worker_at Px (0 :: i :: s) v -> exists t, sent v = Ok t /\ cot v = Ok (slice_backward (padded_shape Lp H (0 :: i :: s)) (slice_of L w (0 :: i :: s)) t).
  Proof.
    intros Hv. destruct (proj1 sent_facts i s v Hv) as (t & E & _). exists t. split; [exact E|].
    unfold cot, general_cotangent. rewrite active_test by (left; exact (worker_at_In _ _ _ Hv)). rewrite Rx, Ry. cbn [rbind]. rewrite Sv, Mv.
    change (general_sent_gradient Pw w groups (has_bias bias) dt dt' dtw dtb rg rg' rgw rgb weight bias_of shape x (halo_result gf) dy Px Py' v) with (sent v).
    rewrite E. cbn [rbind]. rewrite (fg_setup world Px L w HG shape sg_shapes _ v Hv). cbn [rbind u_needed].
    destruct (inp_facts i s v Hv) as (_ & _ & ->). reflexivity.
  Qed.

  Lemma cot_ok v : cot v = Ok (back v).
  Proof.
    assert (Q : exists t, cot v = Ok t); [|destruct Q as [t E]; unfold back, general_back_argument; fold cot; now rewrite E].
    destruct (in_dec Z.eq_dec v (p_ranks Px)) as [Hx|Hx].
    - destruct (worker_at_exists Px v (c_px _ _ _ _ _ _ sg_parts) Hx) as [idx Hi].
      destruct (px_idx _ _ _ _ _ _ sg_parts idx (proj1 Hi)) as (i & s & -> & Hi' & Hs). destruct (cot_member i s v Hi) as (t & _ & E). eauto.
    - unfold cot, general_cotangent. destruct (inactive Px Py Pw v) eqn:Ea; [eauto|]. rewrite Rx, Ry. cbn [rbind]. rewrite Sv, Mv.
      change (general_sent_gradient Pw w groups (has_bias bias) dt dt' dtw dtb rg rg' rgw rgb weight bias_of shape x (halo_result gf) dy Px Py' v) with (sent v).
      assert (Hv : In v (p_ranks Pw) \/ In v (p_ranks Py)).
      { destruct (in_dec Z.eq_dec v (p_ranks Pw)) as [?|Hw]; auto. destruct (in_dec Z.eq_dec v (p_ranks Py)) as [?|Hy]; auto.
        now rewrite inactive_test in Ea by auto. }
      destruct (proj2 sent_facts v Hv Hx) as (t & n & E & _). rewrite E. cbn [rbind]. rewrite (fg_inactive Px w shape v Hx). cbn [rbind]. eauto.
  Qed.

  (** ** The input's gradient *)
  Section Backwarded.
  Variables (pre' : list (@call R)) (init' : Z -> @hst R) (eager' : Z -> Z -> Z -> nat -> bool) (gb : @gst (@hst R) (tensor R)).
  Hypothesis Hpre' : same_calls Px arg pre'.
  Hypothesis Hend' : ends world (rounds (pre' ++ [HBackward back])) init' eager' gb.
  Let dx := general_conv_backward Px Py Pw w groups (has_bias bias) dt dt' dtw dtb rg rg' rgw rgb weight bias_of shape x (halo_result gf) dy (halo_result gb).

  Lemma dx_run v : In v (p_ranks Px) \/ In v (p_ranks Py) \/ In v (p_ranks Pw) ->
    dx v = rbind (sent v) (fun g => feature_gradient Px w shape (fun _ => g) (halo_result gb) v).
  Proof.
    intros Hv. unfold dx, general_conv_backward. rewrite active_test by auto. rewrite Rx, Ry. cbn [rbind]. rewrite Sv, Mv. reflexivity.
  Qed.
  Lemma dx_member i s v : worker_at Px (0 :: i :: s) v -> dx v = pad_backward (total_of Px L w (0 :: i :: s)) (halo_result gb v).
  Proof.
    intros Hv. rewrite dx_run by (left; exact (worker_at_In _ _ _ Hv)). destruct (proj1 sent_facts i s v Hv) as (t & E & _). rewrite E. cbn [rbind].
    exact (ow_gradient world Px L w HG x sg_shapes (fun _ => t) (halo_result gb) _ v Hv).
  Qed.
  Definition dx_of (v : Z) : tensor R := match dx v with Ok t => t | Raise _ => x v end.

  (** Blocks of [U] on the workers of P_x. *)
  Definition uheld (U : tensor R) (v : Z) : tensor R :=
    match index_in Px v with
    | Some idx => block L idx U
    | None => mkt (tshape (back v)) (fun _ => rzero)
    end.
  Lemma uheld_blocks U : tshape U = tshape X -> holds_blocks Px L U (uheld U).
  Proof.
    intros EU. split; [destruct HX as [E _]; congruence|]. intros idx v Hv. unfold uheld.
    apply index_in_spec in Hv; [|exact (c_px _ _ _ _ _ _ sg_parts)]. rewrite Hv. apply teq_refl.
  Qed.
  Lemma uheld_other U v : ~ In v (p_ranks Px) -> uheld U v = mkt (tshape (back v)) (fun _ => rzero).
  Proof. intros Hv. unfold uheld. apply index_in_none in Hv. now rewrite Hv. Qed.

  Lemma back_member i s v : worker_at Px (0 :: i :: s) v ->
    exists t, back v = slice_backward (padded_shape Lp H (0 :: i :: s)) (slice_of L w (0 :: i :: s)) t /\ tshape t = xsh i s /\
      (forall q, valid_index (xsh i s) q -> tat t q = sumf (zrange co) (fun j => tat (back_w j i s) q)) /\
      tshape (back v) = padded_shape Lp H (0 :: i :: s) /\
      forall e : tensor R, tshape e = padded_shape Lp H (0 :: i :: s) -> inner e (back v) = inner (read_slice e (slice_of L w (0 :: i :: s))) t.
  Proof.
    intros Hv. destruct (proj1 sent_facts i s v Hv) as (t & E & T1 & T2). destruct (cot_member i s v Hv) as (t' & E' & C).
    rewrite E in E'. injection E' as <-. pose proof (cot_ok v) as K. rewrite C in K. injection K as K. rewrite <- K.
    exists t. split; [reflexivity|]. split; [exact T1|]. split; [exact T2|].
    pose proof (fg_slice_len world Px L w HG (0 :: i :: s) (proj1 Hv)) as L1.
    pose proof (fg_slice_in world Px L w HG shape sg_shapes (0 :: i :: s) (proj1 Hv)) as L2.
    assert (L3 : length (padded_shape Lp H (0 :: i :: s)) = length L).
    { apply (fg_padded_len world Px L w HG (0 :: i :: s) (proj1 Hv)). }
    assert (Q : forall e : tensor R, tshape e = padded_shape Lp H (0 :: i :: s) -> tshape (slice_backward (tshape e) (slice_of L w (0 :: i :: s)) t) = tshape e /\
      inner (read_slice e (slice_of L w (0 :: i :: s))) t = inner e (slice_backward (tshape e) (slice_of L w (0 :: i :: s)) t)).
    { intros e Ee. apply slice_adjoint; [rewrite Ee; congruence|rewrite Ee; exact L2|exact T1]. }
    split.
    - exact (proj1 (Q (tzeros (padded_shape Lp H (0 :: i :: s))) eq_refl)).
    - intros e Ee. destruct (Q e Ee) as [_ ->]. now rewrite Ee.
  Qed.

  Lemma pairing_general U : tshape U = tshape X ->
    (forall v, In v (p_ranks Px) -> dx v = Ok (dx_of v) /\ tshape (dx_of v) = tshape (x v)) /\
    sumf (p_ranks Px) (fun v => inner (uheld U v) (dx_of v)) = inner (seq_of U) dY.
  Proof.
    intros EU. pose proof (uheld_blocks U EU) as HU. pose proof (c_px _ _ _ _ _ _ sg_parts) as HPx.
    assert (Ush : forall idx v, worker_at Px idx v -> tshape (uheld U v) = block_shape L idx) by (intros idx v Hv; apply (proj2 HU idx v Hv)).
    set (argU := halo_argument Px w rzero (fun v => tshape (uheld U v)) (uheld U)).
    destruct (async_ends _ _ _ _ (fun _ _ _ _ => true) (halo_async world Px Lp H _ _ _
       (fg_given world Px L w HG shape sg_shapes) sg_planned [HForward argU] (fun _ => mkhst (tzeros []) (tzeros []) (tzeros []) []))) as [gu Hu].
    assert (HN : NoDup world /\ forall v, In v (p_ranks Px) -> In v world) by (destruct HG as (A & B & _); auto). destruct HN as [HN HW].
    assert (Ai : forall v, ~ In v (p_ranks Px) -> argU v = uheld U v).
    { intros v Hv. unfold argU, halo_argument, halo_input. now rewrite (fg_inactive Px w _ v Hv). }
    assert (Ix : forall v, In v (p_ranks Px) -> exists i s, worker_at Px (0 :: i :: s) v /\ 0 <= i < ci /\ valid_index S s).
    { intros v Hv. destruct (worker_at_exists Px v HPx Hv) as [idx Hi].
      destruct (px_idx _ _ _ _ _ _ sg_parts idx (proj1 Hi)) as (i & s & -> & Hi' & Hs). eauto. }
    destruct (fg_exchange world Px L w HG ny sg_counts sg_ny shape sg_shapes _ _ _ sg_planned [] pre' argU back
                (fun _ => mkhst (tzeros []) (tzeros []) (tzeros []) []) init' (fun _ _ _ _ => true) eager' gu gb)
      as (Sh & St & Ad).
    - intros idx v Hv. split; [exact (proj1 (proj2 (ow_arg world Px L w HG ny (uheld U) Ush idx v Hv)))|].
      destruct (px_idx _ _ _ _ _ _ sg_parts idx (proj1 Hv)) as (i & s & -> & _ & _). destruct (back_member i s v Hv) as (t & _ & _ & _ & E & _). exact E.
    - intros v Hv Hn. rewrite Ai, uheld_other by auto. reflexivity.
    - constructor.
    - exact (ow_calls world Px L w HG ny x sg_shapes pre' Hpre').
    - exact Hu.
    - exact Hend'.
    - assert (K : forall v, In v (p_ranks Px) -> (dx v = Ok (dx_of v) /\ tshape (dx_of v) = tshape (x v)) /\ inner (uheld U v) (dx_of v) = inner (argU v) (halo_result gb v)).
      { intros v Hin. destruct (Ix v Hin) as (i & s & Hv & Hi & Hs). destruct (back_member i s v Hv) as (t & _ & _ & _ & E & _).
        destruct (ow_arg world Px L w HG ny (uheld U) Ush _ v Hv) as (_ & _ & Pa). destruct (Pa (halo_result gb v)) as (d & Ed & Sd & Id).
        { destruct (Sh v (HW v Hin)) as [_ ->]. exact E. }
        assert (Edx : dx v = Ok d) by (rewrite (dx_member i s v Hv); exact Ed).
        unfold dx_of. rewrite Edx. split; [split; [reflexivity|]|].
        - rewrite Sd, (Ush _ v Hv). symmetry. now apply sg_shapes.
        - symmetry. exact Id. }
      split; [intros v Hv; apply K; auto|].
      transitivity (world_inner world argU (halo_result gb)).
      { unfold world_inner. rewrite (sum_world world (p_ranks Px)); auto; [|apply HPx|].
        - apply sumf_ext. intros v Hv. now apply K.
        - intros v Hv Hn. unfold inner. apply sumf_zero. intros q _. rewrite Ai, uheld_other by auto. cbn [tat]. ring. }
      rewrite <- Ad. unfold world_inner. rewrite (sum_world world (p_ranks Px)); auto; [|apply HPx|].
      2:{ intros v Hv Hn. unfold inner. apply sumf_zero. intros q _. destruct (St v Hv Hn) as [[_ F] _]. rewrite F, Ai, uheld_other by auto. cbn [tat]. ring. }
      rewrite <- (parts_inner U EU). rewrite (ranks_wk Px HPx), sumf_map, (c_sx _ _ _ _ _ _ sg_parts), range_sum, sum_cons.
      change (zrange 1) with [0]. rewrite sumf_cons, sumf_nil, radd_0_r, sum_cons.
      apply sumf_ext. intros i Hi. apply in_zrange in Hi. apply sumf_ext. intros s Hs. apply in_indices in Hs.
      assert (Hv : worker_at Px (0 :: i :: s) (wk Px (0 :: i :: s))).
      { apply wk_worker; auto. rewrite (c_sx _ _ _ _ _ _ sg_parts). repeat (apply valid_index_cons; split; [lia|]). exact Hs. }
      set (v := wk Px (0 :: i :: s)) in *. destruct (back_member i s v Hv) as (t & _ & T1 & T2 & _ & T3).
      destruct (sg_windows U (uheld U) _ _ _ [] _ _ gu i s v EU HU sg_planned (Forall_nil _) Hu Hv) as (Rd & Sl & Sg & Esl).
      set (sl := general_input w Px (fun v => tshape (uheld U v)) (uheld U) (halo_result gu) v) in *.
      rewrite T3 by exact Sg. rewrite <- Esl.
      transitivity (sumf (zrange co) (fun j => inner sl (back_w j i s))).
      + unfold inner. rewrite sumf_exchange. apply sumf_ext. intros q Hq. apply in_indices in Hq. rewrite Sl in Hq. rewrite T2 by auto.
        now rewrite sumf_mul_l.
      + apply sumf_ext. intros j Hj. apply in_zrange in Hj. symmetry. now apply worker_adjoint.
  Qed.

  Lemma dx_blocks idx v : worker_at Px idx v ->
    exists t, dx v = Ok t /\ teq t (block L idx (input_gradient (conv_coefficients cout groups W) w (tshape X) dY)).
  Proof.
    intros Hv. destruct HG as (HN & HW & HPo & HLo & HWo & _). destruct sg_facts as (F1 & F2 & F3 & F4 & F5 & F6 & F7).
    destruct (pairing_general X eq_refl) as [Hd _].
    destruct (glue_holds Px L dx_of HPo HLo HWo) as [D HDg].
    { intros i u Hu. rewrite (proj2 (Hd u (worker_at_In _ _ _ Hu))). now apply sg_shapes. }
    assert (EL : tshape X = layout_shape L) by apply HX.
    assert (E : teq D (input_gradient (conv_coefficients cout groups W) w (tshape X) dY)).
    { pose proof HDg as [SD _]. split; [rewrite SD, <- EL; reflexivity|]. intros q Hq. rewrite SD, <- EL in Hq.
      rewrite <- (unit_inner (tshape X) q D Hq).
      rewrite <- (inner_members Px L (unit_at (tshape X) q) D _ _ HPo HLo HWo (uheld_blocks (unit_at (tshape X) q) eq_refl) HDg).
      rewrite (proj2 (pairing_general (unit_at (tshape X) q) eq_refl)).
      rewrite (sequential_adjoint (conv_coefficients cout groups W) (conv_kernel w cout groups W None) (fun _ => cout) w (unit_at (tshape X) q)
                 (seq_of (unit_at (tshape X) q)) dY).
      - apply unit_inner. exact Hq.
      - apply C51_convolution_kernels; auto. lia.
      - now apply seq_is.
      - rewrite ED, EY. reflexivity. }
    exists (dx_of v). split; [apply Hd; now apply worker_at_In in Hv|].
    destruct HDg as [SD HDg]. eapply teq_trans; [apply HDg; exact Hv|]. eapply block_ext; eauto.
  Qed.
  End Backwarded.

  (** ** The parameters' gradients *)
  Let wb := general_weight_back Pw w groups dtw rgw weight.
  Let bb := general_bias_back Pw dtw rgw weight.
  Let copies bk := general_copies Px Py Pw w groups (has_bias bias) dt dt' dtw dtb rg rg' rgw rgb weight bias_of shape x (halo_result gf) dy bk.
  Let layer bk := general_layer_gradient Px Py Pw w groups (has_bias bias) dt dt' dtw dtb rg rg' rgw rgb weight bias_of shape x (halo_result gf) dy bk.
  Let wr := false :: false :: repeat true nk.
  Let bu := false :: true :: repeat false nk.
  Let br := false :: true :: repeat true nk.

  Lemma sg_ends j i : 0 <= j < co -> 0 <= i < ci -> valid_index (p_shape Pw) (j :: i :: repeat 0 nk).
  Proof.
    intros Hj Hi. apply (pw_ok _ _ _ _ _ _ sg_parts); auto. rewrite <- sg_len. pose proof sg_pos as PS. clear - PS.
    induction PS as [|n l Hn Hl IH]; [constructor|]. cbn [length repeat]. apply valid_index_cons. split; [lia|auto].
  Qed.
  Lemma sg_members j i : 0 <= j < co -> 0 <= i < ci -> NoDup (map (fun s => wk Pw (j :: i :: s)) (indices S)).
  Proof.
    intros Hj Hi. apply NoDup_map_inj; [|apply indices_nodup]. intros s s' Hs Hs' E. apply in_indices in Hs, Hs'.
    apply wk_inj in E; [congruence|exact (c_pw _ _ _ _ _ _ sg_parts)|now apply (pw_ok _ _ _ _ _ _ sg_parts)|now apply (pw_ok _ _ _ _ _ _ sg_parts)].
  Qed.

  (** What every worker computes. *)
  Lemma copies_weight j i s u : worker_at Pw (j :: i :: s) u ->
    layer wb u = Ok (copies wb u) /\ tshape (copies wb u) = subshape1 co j cout :: subshape1 ci i (cin / groups) :: w_kernel w /\
    forall c m k, 0 <= c < subshape1 co j cout -> 0 <= m < subshape1 ci i (cin / groups) -> valid_index (w_kernel w) k ->
      tat (copies wb u) (c :: m :: k) =
      sumf (zrange b) (fun b' => sumf (indices (block_shape (balanced ys S) s)) (fun o => let p := vadd (block_lo (balanced ys S) s) o in
        rmul (tat dY (b' :: start1 co j cout + c :: p))
             (value_at X rzero (b' :: (start1 co j cout + c) / (cout / groups) * (cin / groups) + (start1 ci i (cin / groups) + m)
                                   :: seen_point (length xs) w p k)))).
  Proof.
    intros Hu. destruct (pw_idx _ _ _ _ _ _ sg_parts _ (proj1 Hu)) as (j' & i' & s' & E & Hj & Hi & Hs). inversion E; subst j' i' s'. clear E.
    destruct (sg_layer wb j i s u Hu) as (v & t & g & Hv & Ht & Hg & E). fold (layer wb u) in E.
    destruct (q_params Px Py Pw co ci S sg_parts w cout W bias weight bias_of sg_len HH dtw dtb rgw rgb j i s u Hu) as [(wt & Ew & Tw) _].
    destruct (sg_wt j i wt Hj Hi Tw) as (Sw & Eg & C1 & C2). unfold wb, general_weight_back in E. rewrite Ew in E. cbn [rbind] in E.
    rewrite Sw in E. cbn [nth] in E.
    assert (Ec : copies wb u = conv_weight_backward w (subshape1 co j cout) groups t g).
    { unfold copies, general_copies. change (general_layer_gradient _ _ _ _ _ _ _ _ _ _ _ _ _ _ _ _ _ _ _ _ wb u) with (layer wb u).
      unfold wb, general_weight_back. now rewrite E. }
    rewrite Ec. split; [exact E|]. destruct (inp_facts i s v Hv) as ((es & Es & Le & Oe & Ns & Ve) & _ & _).
    destruct Ht as [St Vt]. destruct Hg as [Sg Vg]. cbn [conv_weight_backward tshape tat]. rewrite St, Es, Sg, ob_shape by auto. cbn [nth skipn].
    rewrite Eg. split; [reflexivity|]. intros c m k Hc Hm Hk. destruct sg_facts as (F1 & F2 & F3 & F4 & F5 & F6 & F7).
    destruct (channel_index co ci groups cout cin j i c m F1 F2 F3 F4 F5 F6 Hj Hi Hc Hm) as [Q1 Q2].
    apply sumf_ext. intros b' Hb'. apply in_zrange in Hb'. apply sumf_ext. intros o Ho. apply in_indices in Ho. cbv zeta. f_equal.
    - rewrite Vg by (rewrite Sg, ob_shape by auto; do 2 (apply valid_index_cons; split; [auto|]); auto). now apply ob_value.
    - rewrite ob_vec in Ho by auto. destruct (Ve b' _ o k Hb' Q2 Ho Hk) as [V1 V2]. rewrite Vt by (now rewrite St). rewrite V2, Q1.
      rewrite ob_read; auto. apply valid_index_length in Ho. now rewrite vec_length in Ho.
  Qed.

  Lemma copies_bias j i s u : worker_at Pw (j :: i :: s) u ->
    layer bb u = Ok (copies bb u) /\ tshape (copies bb u) = [subshape1 co j cout] /\
    forall c, 0 <= c < subshape1 co j cout ->
      tat (copies bb u) [c] = sumf (zrange b) (fun b' => sumf (indices (block_shape (balanced ys S) s)) (fun o =>
        tat dY (b' :: start1 co j cout + c :: vadd (block_lo (balanced ys S) s) o))).
  Proof.
    intros Hu. destruct (pw_idx _ _ _ _ _ _ sg_parts _ (proj1 Hu)) as (j' & i' & s' & E & Hj & Hi & Hs). inversion E; subst j' i' s'. clear E.
    destruct (sg_layer bb j i s u Hu) as (v & t & g & Hv & Ht & Hg & E). fold (layer bb u) in E.
    destruct (q_params Px Py Pw co ci S sg_parts w cout W bias weight bias_of sg_len HH dtw dtb rgw rgb j i s u Hu) as [(wt & Ew & Tw) _].
    destruct (sg_wt j i wt Hj Hi Tw) as (Sw & Eg & C1 & C2). unfold bb, general_bias_back in E. rewrite Ew in E. cbn [rbind] in E.
    rewrite Sw in E. cbn [nth] in E.
    assert (Ec : copies bb u = conv_bias_backward (subshape1 co j cout) g).
    { unfold copies, general_copies. change (general_layer_gradient _ _ _ _ _ _ _ _ _ _ _ _ _ _ _ _ _ _ _ _ bb u) with (layer bb u).
      unfold bb, general_bias_back. now rewrite E. }
    rewrite Ec. split; [exact E|]. destruct Hg as [Sg Vg]. cbn [conv_bias_backward tshape tat]. rewrite Sg, ob_shape by auto. cbn [nth skipn].
    split; [reflexivity|]. intros c Hc.
    apply sumf_ext. intros b' Hb'. apply in_zrange in Hb'. apply sumf_ext. intros o Ho. apply in_indices in Ho.
    rewrite Vg by (rewrite Sg, ob_shape by auto; do 2 (apply valid_index_cons; split; [auto|]); auto). now apply ob_value.
  Qed.

  (** Summed over the workers' features. *)
  Lemma sum_features (F : Z -> list Z -> R) :
    sumf (indices S) (fun s => sumf (zrange b) (fun b' => sumf (indices (block_shape (balanced ys S) s)) (fun o => F b' (vadd (block_lo (balanced ys S) s) o)))) =
    sumf (zrange b) (fun b' => sumf (indices ys) (F b')).
  Proof.
    rewrite sumf_exchange. apply sumf_ext. intros b' _. apply (balanced_entries ys S (F b')).
    - destruct sg_seq as (_ & _ & _ & _ & Ly). rewrite sg_len. exact Ly.
    - exact sg_y0.
    - exact sg_pos.
  Qed.

  Lemma unmask_features (a c : bool) j i s : valid_index S s ->
    unmask (a :: c :: repeat true nk) (j :: i :: s) = (if a then 0 else j) :: (if c then 0 else i) :: repeat 0 nk.
  Proof.
    intros Hs. cbn [unmask map2]. do 2 f_equal. fold (unmask (repeat true nk) s). apply unmask_true. apply valid_index_length in Hs. rewrite Hs. exact sg_len.
  Qed.
  Lemma zero_features : mask_zero (repeat true nk) (repeat 0 nk) = true.
  Proof. clear. induction nk as [|n IH]; [reflexivity|]. cbn [repeat]. rewrite mask_cons, IH. reflexivity. Qed.

  Let dweight := general_weight_gradient Px Py Pw w groups (has_bias bias) dt dt' dtw dtb rg rg' rgw rgb weight bias_of shape x (halo_result gf) dy.
  Let dbias := general_bias_gradient Px Py Pw w groups (has_bias bias) dt dt' dtw dtb rg rg' rgw rgb weight bias_of shape x (halo_result gf) dy.

  Lemma dweight_blocks j i v : worker_at Pw (j :: i :: repeat 0 nk) v ->
    exists t, dweight v = Ok t /\
      teq t (block (balanced (tshape W) (co :: ci :: repeat 1 nk)) (j :: i :: repeat 0 nk) (weight_gradient w cout groups X dY)).
  Proof.
    intros Hv. pose proof (c_pw _ _ _ _ _ _ sg_parts) as Hw. pose proof (c_sw _ _ _ _ _ _ sg_parts) as Es.
    destruct (pw_idx _ _ _ _ _ _ sg_parts _ (proj1 Hv)) as (j' & i' & s' & E & Hj & Hi & Hs0). inversion E; subst j' i' s'. clear E.
    destruct sg_facts as (F1 & F2 & F3 & F4 & F5 & F6 & F7). destruct HH as (HH1 & _ & HH3). fold nk in HH1.
    destruct (q_roots Px Py Pw co ci S sg_parts w sg_len) as (E1 & _ & _). fold nk wr in E1.
    assert (Lp' : length (p_shape Pw) = Datatypes.S (Datatypes.S nk)) by (rewrite Es; cbn [length]; now rewrite sg_len).
    pose proof (sub_whole Pw Hw) as Ew. rewrite false_map in Ew.
    assert (Wsh : forall j i u, worker_at Pw (j :: i :: repeat 0 nk) u -> tshape (weight u) = subshape1 co j cout :: subshape1 ci i (cin / groups) :: w_kernel w).
    { intros j0 i0 u Hu. destruct (pw_idx _ _ _ _ _ _ sg_parts _ (proj1 Hu)) as (j' & i' & s' & E & Hj' & Hi' & _). inversion E; subst j' i' s'.
      destruct (sg_wt j0 i0 (weight u) Hj' Hi' (HH1 j0 i0 u Hu)) as (A & B & _). now rewrite A, B. }
    destruct (@sub_broadcast_back R Pw wr (repeat false (length (p_shape Pw))) Hw) with
      (dt := dtw) (rg := rgw) (param := weight) (grads := copies wb) (idx := j :: i :: repeat 0 nk) (v := v)
      (us := map (fun s => wk Pw (j :: i :: s)) (indices S)) as (t & Et & T1 & T2); auto.
    - unfold wr. cbn [length]. now rewrite repeat_length.
    - now rewrite repeat_length.
    - rewrite Lp'. unfold wr. cbn [repeat]. constructor; [auto|]. constructor; [auto|]. apply le_masks.
    - intros u Hu. now apply HH3.
    - intros idx u Hu _. destruct (pw_idx _ _ _ _ _ _ sg_parts _ (proj1 Hu)) as (j' & i' & s' & -> & Hj' & Hi' & Hs').
      unfold wr. rewrite unmask_features by auto. rewrite (Wsh j' i'); [now apply (copies_weight j' i' s')|].
      apply wk_worker; auto. now apply sg_ends.
    - unfold wr. rewrite !mask_cons. exact zero_features.
    - now apply sg_members.
    - intros u. rewrite in_map_iff. split.
      + intros (s & <- & Hs). apply in_indices in Hs. exists (j :: i :: s). split; [apply wk_worker; auto; now apply (pw_ok _ _ _ _ _ _ sg_parts)|].
        split; [apply mask_false|]. now apply unmask_features.
      + intros (idx & Hu & _ & E). destruct (pw_idx _ _ _ _ _ _ sg_parts _ (proj1 Hu)) as (j' & i' & s' & -> & Hj' & Hi' & Hs').
        unfold wr in E. rewrite unmask_features in E by auto. inversion E; subst j' i'. exists s'. split; [now apply worker_wk|now apply in_indices].
    - rewrite Ew in Et. exists t. split.
      { unfold dweight, general_weight_gradient. rewrite Sv. fold wb. change (general_layer_gradient _ _ _ _ _ _ _ _ _ _ _ _ _ _ _ _ _ _ _ _ wb v) with (layer wb v).
        rewrite (proj1 (copies_weight j i _ v Hv)). cbn [rbind]. rewrite E1. cbn [rbind]. exact Et. }
      rewrite (Wsh j i v Hv) in T1. split.
      + rewrite T1. cbn [block tshape]. rewrite F7, !bal_shape_cons by auto. now rewrite ones_shape.
      + rewrite T1 in *. intros q Hq. rewrite T2 by auto.
        apply valid_index_cons_inv in Hq as (c & q1 & -> & Hc & Hq). apply valid_index_cons_inv in Hq as (m & k & -> & Hm & Hk).
        pose proof (valid_index_length _ _ Hk) as Lk. rewrite sumf_map.
        cbn [weight_gradient block tat]. rewrite F7, !bal_lo_cons by lia. unfold nk. rewrite ones_lo.
        pose proof (zeros_vadd (length (w_kernel w)) k Lk) as Ez. unfold vadd at 1. cbn [map2]. fold (vadd (repeat 0 (length (w_kernel w))) k). rewrite Ez.
        rewrite ED, EY, EX. cbn [nth skipn].
        rewrite <- sum_features. apply sumf_ext. intros s Hs. apply in_indices in Hs.
        destruct (copies_weight j i s (wk Pw (j :: i :: s))) as (_ & _ & V); [apply wk_worker; auto; now apply (pw_ok _ _ _ _ _ _ sg_parts)|].
        now rewrite V.
  Qed.

  Lemma sg_bias_active j i s v : worker_at Pw (j :: i :: s) v ->
    is_active (p_ranks (sub_part br Pw)) v = (i =? 0) && all_zero s.
  Proof.
    intros Hv. pose proof (c_pw _ _ _ _ _ _ sg_parts) as Hw. pose proof (c_sw _ _ _ _ _ _ sg_parts) as Es.
    destruct (pw_idx _ _ _ _ _ _ sg_parts _ (proj1 Hv)) as (j' & i' & s' & E & Hj & Hi & Hs0). inversion E; subst j' i' s'. clear E.
    assert (Lm : length br = length (p_shape Pw)) by (unfold br; rewrite Es; cbn [length]; now rewrite repeat_length, sg_len).
    rewrite <- (mask_true nk s) by (apply valid_index_length in Hs0; rewrite Hs0; exact sg_len).
    assert (Em : (i =? 0) && mask_zero (repeat true nk) s = mask_zero br (j :: i :: s)) by reflexivity. rewrite Em.
    apply Bool.eq_iff_eq_true. rewrite is_active_spec, sub_active by auto. split.
    - intros (idx & Hi' & Hz'). now rewrite (worker_at_fun _ _ _ _ Hw Hi' Hv) in Hz'.
    - intros Hz'. eauto.
  Qed.

  Lemma dbias_blocks j v : worker_at Pw (j :: 0 :: repeat 0 nk) v -> bias <> None ->
    exists t, dbias v = Some (Ok t) /\ teq t (block (balanced [cout] [co]) [j] (bias_gradient cout dY)).
  Proof.
    intros Hv Hbn. pose proof (c_pw _ _ _ _ _ _ sg_parts) as Hw. pose proof (c_sw _ _ _ _ _ _ sg_parts) as Es.
    destruct (pw_idx _ _ _ _ _ _ sg_parts _ (proj1 Hv)) as (j' & i' & s' & E & Hj & Hi & Hs0). inversion E; subst j' i' s'. clear E.
    destruct sg_facts as (F1 & F2 & F3 & F4 & F5 & F6 & F7). destruct HH as (_ & HH2 & HH3). fold nk in HH2.
    destruct (q_roots Px Py Pw co ci S sg_parts w sg_len) as (_ & E2 & E3). fold nk bu br in E2, E3.
    assert (Lp' : length (p_shape Pw) = Datatypes.S (Datatypes.S nk)) by (rewrite Es; cbn [length]; now rewrite sg_len).
    assert (Bsh : forall j u, 0 <= j < co -> worker_at Pw (j :: 0 :: repeat 0 nk) u -> tshape (bias_of u) = [subshape1 co j cout]).
    { intros j0 u Hj0 Hu. destruct bias as [bv|]; [|congruence]. destruct (HH2 j0 u Hu) as [-> _]. cbn [block tshape].
      unfold block_shape, balanced. cbn [map2]. now rewrite balanced1_nth. }
    destruct (@sub_broadcast_back R Pw br bu Hw) with
      (dt := dtb) (rg := rgb) (param := bias_of) (grads := copies bb) (idx := j :: 0 :: repeat 0 nk) (v := v)
      (us := map (fun s => wk Pw (j :: 0 :: s)) (indices S)) as (t & Et & T1 & T2); auto.
    - unfold br. cbn [length]. now rewrite repeat_length.
    - unfold bu. cbn [length]. now rewrite repeat_length.
    - unfold br, bu. constructor; [auto|]. constructor; [auto|]. apply le_masks.
    - intros u Hu. now apply HH3.
    - intros idx u Hu Hm. destruct (pw_idx _ _ _ _ _ _ sg_parts _ (proj1 Hu)) as (j' & i' & s' & -> & Hj' & Hi' & Hs').
      unfold br. rewrite unmask_features by auto. rewrite (Bsh j'); auto; [now apply (copies_bias j' i' s')|].
      apply wk_worker; auto. apply sg_ends; auto.
    - unfold br. rewrite !mask_cons. exact zero_features.
    - now apply sg_members.
    - intros u. rewrite in_map_iff. split.
      + intros (s & <- & Hs). apply in_indices in Hs. exists (j :: 0 :: s). split; [apply wk_worker; auto; now apply (pw_ok _ _ _ _ _ _ sg_parts)|].
        split; [unfold bu; rewrite !mask_cons; apply mask_false|]. now apply unmask_features.
      + intros (idx & Hu & Hm & E). destruct (pw_idx _ _ _ _ _ _ sg_parts _ (proj1 Hu)) as (j' & i' & s' & -> & Hj' & Hi' & Hs').
        unfold br in E. rewrite unmask_features in E by auto. inversion E; subst j'.
        unfold bu in Hm. rewrite !mask_cons in Hm. cbn [andb] in Hm. apply andb_true_iff in Hm as [Hm _]. apply Z.eqb_eq in Hm. subst i'.
        exists s'. split; [now apply worker_wk|now apply in_indices].
    - exists t. split.
      { assert (Eh : negb (has_bias bias) = false) by (clear - Hbn; destruct bias; [reflexivity|congruence]).
        unfold dbias, general_bias_gradient. rewrite Eh, Sv, E2, E3.
        rewrite (sg_bias_active j 0 _ v Hv). cbn [Z.eqb andb].
        rewrite <- (mask_true nk) by apply repeat_length. rewrite zero_features. f_equal. fold bb.
        change (general_layer_gradient _ _ _ _ _ _ _ _ _ _ _ _ _ _ _ _ _ _ _ _ bb v) with (layer bb v).
        rewrite (proj1 (copies_bias j 0 _ v Hv)). cbn [rbind]. exact Et. }
      rewrite (Bsh j v) in T1 by auto. split.
      + rewrite T1. cbn [block tshape]. unfold block_shape, balanced. cbn [map2]. now rewrite balanced1_nth.
      + rewrite T1 in *. intros q Hq. rewrite T2 by auto.
        apply valid_index_cons_inv in Hq as (c & q1 & -> & Hc & Hq). apply valid_index_nil in Hq. subst q1. rewrite sumf_map.
        cbn [bias_gradient block tat]. unfold block_lo, balanced, vadd. cbn [map2]. rewrite balanced1_prefix by lia. cbn [nth].
        rewrite ED, EY. cbn [nth skipn].
        rewrite <- (sum_features (fun b' o => tat dY (b' :: start1 co j cout + c :: o))). apply sumf_ext. intros s Hs. apply in_indices in Hs.
        destruct (copies_bias j 0 s (wk Pw (j :: 0 :: s))) as (_ & _ & V); [apply wk_worker; auto; now apply (pw_ok _ _ _ _ _ _ sg_parts)|].
        now rewrite V.
  Qed.

  Lemma dbias_none v : bias = None \/ (forall j, ~ worker_at Pw (j :: 0 :: repeat 0 nk) v) -> dbias v = None.
  Proof.
    intros Hn. unfold dbias, general_bias_gradient. destruct (negb (has_bias bias)) eqn:Eh; [reflexivity|]. rewrite Sv.
    destruct (q_roots Px Py Pw co ci S sg_parts w sg_len) as (_ & E2 & E3). fold nk bu br in E2, E3. rewrite E2, E3.
    destruct Hn as [Hn|Hn]; [rewrite Hn in Eh; discriminate|]. destruct (is_active (p_ranks (sub_part br Pw)) v) eqn:Ea; [|reflexivity].
    exfalso. apply (bias_holders Px Py Pw co ci S sg_parts w sg_len) in Ea as [j Hj]. exact (Hn j Hj).
  Qed.

  Lemma dx_other gb v : let dx := general_conv_backward Px Py Pw w groups (has_bias bias) dt dt' dtw dtb rg rg' rgw rgb weight bias_of shape x (halo_result gf) dy (halo_result gb) in
    (In v (p_ranks Pw) \/ In v (p_ranks Py) -> ~ In v (p_ranks Px) -> exists t n, dx v = Ok t /\ tshape t = [n; 0] /\ 0 <= n) /\
    (~ In v (p_ranks Px) -> ~ In v (p_ranks Pw) -> ~ In v (p_ranks Py) -> dx v = Ok (dy v)).
  Proof.
    intros dx. split.
    - intros Hv Hn. destruct (proj2 sent_facts v Hv Hn) as (t & n & E & T). exists t, n. split; [|exact T].
      unfold dx. rewrite dx_run by tauto. rewrite E. cbn [rbind]. unfold feature_gradient. now rewrite (fg_inactive Px w shape v Hn).
    - intros N1 N2 N3. unfold dx, general_conv_backward. now rewrite inactive_test.
  Qed.
  End Forwarded.
End Several.

(** * One worker: as the channel-distributed layer *)
Lemma serial_gradients R Px Py Pw co ci S L w groups cin cout (W : tensor R) bias X Y dY weight bias_of x dy dt dt' dtw dtb rg rg' rgw rgb world shape exchanged back :
  conv_layer Px Py Pw co ci S w groups cin cout W bias X Y ->
  plain groups Px Py Pw ->
  conv_parameters_held Pw co ci w cout W bias weight bias_of ->
  feature_given world Px L w -> holds_blocks Px L X x -> others_pass Px Py Pw x ->
  tshape dY = tshape Y -> holds_blocks Py (balanced (tshape Y) (p_shape Py)) dY dy -> others_pass Py Px Pw dy ->
  length (p_ranks Pw) = 1%nat ->
  conv_gradients_delivered Px Py Pw co ci L w groups cout W bias X dY dy
    (general_conv_backward Px Py Pw w groups (has_bias bias) dt dt' dtw dtb rg rg' rgw rgb weight bias_of shape x exchanged dy back)
    (general_weight_gradient Px Py Pw w groups (has_bias bias) dt dt' dtw dtb rg rg' rgw rgb weight bias_of shape x exchanged dy)
    (general_bias_gradient Px Py Pw w groups (has_bias bias) dt dt' dtw dtb rg rg' rgw rgb weight bias_of shape x exchanged dy).
Proof.
  intros HL HE HH HG HX HO ED HD HOd E1.
  pose proof (k_parts _ _ _ _ _ _ _ _ _ _ _ _ _ _ HL) as HP.
  pose proof HE as [_ E4]. destruct (E4 E1) as [E5 E6].
  destruct (one_shape Px Py Pw co ci S w groups cin cout W bias X Y HL E1 weight bias_of HH) as (Q1 & Q2 & Q3).
  pose proof HL as (_ & HS & _ & _ & _ & _ & _ & _ & _ & _ & (b & xs & EX & Lxs & Nxs) & HY).
  pose proof (c_px _ _ _ _ _ _ HP) as Wx. pose proof (c_pw _ _ _ _ _ _ HP) as Ww. pose proof (c_sx _ _ _ _ _ _ HP) as Sx.
  assert (Ones : Forall (fun n => n = 1) (p_shape Px)).
  { rewrite Sx, Q2, Q3. constructor; auto. constructor; auto. apply Forall_forall. intros z Hz. now apply repeat_spec in Hz. }
  assert (HG' := HG). destruct HG' as (_ & _ & _ & _ & EL & _).
  assert (Pos : pos_shape (p_shape Px)) by apply Wx.
  assert (Nx : nonneg_shape (tshape X)).
  { destruct HX as [-> _]. destruct HG as (_ & _ & _ & HLo & _). now apply layout_shape_nonneg. }
  assert (Ln : length (tshape X) = length (p_shape Px)).
  { rewrite EX, Sx. cbn [length]. now rewrite Lxs, HS. }
  assert (Bal : forall idx v (G : tensor R), tshape G = tshape X -> worker_at Px idx v -> teq (block L idx G) (block (balanced (tshape X) (p_shape Px)) idx G)).
  { intros idx v G EG Hv. eapply teq_trans; [|apply teq_sym].
    - apply single_block; [rewrite EL; exact Ones|rewrite EL; apply Hv|rewrite EG; apply HX].
    - apply single_block; [rewrite balanced_workers by auto; exact Ones|rewrite balanced_workers by auto; apply Hv|].
      rewrite balanced_shape by auto. exact EG. }
  assert (HX' : holds_blocks Px (balanced (tshape X) (p_shape Px)) X x).
  { split; [now rewrite balanced_shape by auto|]. intros idx v Hv. eapply teq_trans; [apply HX; exact Hv|now apply (Bal idx v)]. }
  assert (Sv : forall v, In v (p_ranks Pw) -> serial Pw v = true).
  { intros v Hv. unfold serial. apply is_active_spec in Hv. now rewrite Hv, E1. }
  assert (HSk : ChannelConv = ChannelConv -> S = repeat 1 (length S)) by (intros _; rewrite HS; exact Q3).
  assert (Rx : forall v, recast_x ChannelConv Px Pw v = Ok Px) by (intros v; exact (c_recast_x Px Py Pw co ci S HP ChannelConv v HSk)).
  assert (Ry : forall v, recast_y ChannelConv Py Pw v = Ok (y_part Py co S)) by (intros v; exact (c_recast_y Px Py Pw co ci S HP ChannelConv v HSk)).
  assert (Rx' : forall v, recast_x GeneralConv Px Pw v = Ok Px) by (intros v; exact (c_recast_x Px Py Pw co ci S HP GeneralConv v ltac:(discriminate))).
  assert (Ry' : forall v, recast_y GeneralConv Py Pw v = Ok (y_part Py co S)) by (intros v; exact (c_recast_y Px Py Pw co ci S HP GeneralConv v ltac:(discriminate))).
  rewrite Q3 in HL.
  destruct (C54_proof R Px Py Pw co ci w groups cin cout W bias X Y dY weight bias_of x dy dt dt' rg rg' HL HE HH HX' HO ED HD HOd)
    as (A1 & A2 & A3 & A4 & A5 & A6).
  assert (Run : forall v, In v (p_ranks Pw) ->
    general_conv_backward Px Py Pw w groups (has_bias bias) dt dt' dtw dtb rg rg' rgw rgb weight bias_of shape x exchanged dy back v =
    channel_conv_backward Px Py Pw w groups (has_bias bias) dt dt' rg rg' weight bias_of x dy v).
  { intros v Hv. unfold general_conv_backward, channel_conv_backward. rewrite !active_test by auto. rewrite Rx, Ry, Rx', Ry'. cbn [rbind]. now rewrite Sv. }
  split; [|split; [|split; [|split; [|split]]]].
  - intros idx v Hv. rewrite Run by (rewrite <- E5; exact (worker_at_In _ _ _ Hv)). destruct (A1 idx v Hv) as (t & E & T). exists t. split; [exact E|].
    eapply teq_trans; [exact T|]. apply teq_sym. now apply (Bal idx v).
  - intros j i v Hv. destruct (A2 j i v Hv) as (t & E & T). exists t. split; [|exact T]. rewrite <- E.
    unfold general_weight_gradient, channel_weight_gradient, channel_layer_gradient. rewrite Rx, Ry. cbn [rbind].
    now rewrite Sv by exact (worker_at_In _ _ _ Hv).
  - intros j v Hv Hb. destruct (A3 j v Hv Hb) as (t & E & T). exists t. split; [|exact T]. rewrite <- E.
    unfold general_bias_gradient, channel_bias_gradient, channel_layer_gradient. rewrite Rx, Ry. cbn [rbind].
    rewrite Sv by exact (worker_at_In _ _ _ Hv). apply (index_in_spec Pw v _ Ww) in Hv. rewrite Hv. destruct bias; [reflexivity|congruence].
  - intros v Hn. unfold general_bias_gradient. destruct (negb (has_bias bias)) eqn:Eh; [reflexivity|].
    destruct Hn as [Hn|Hn]; [rewrite Hn in Eh; discriminate|].
    destruct (serial Pw v) eqn:Es.
    + exfalso. assert (Hin : In v (p_ranks Pw)) by (unfold serial in Es; apply andb_true_iff in Es as [Es _]; now apply is_active_spec).
      destruct (worker_at_exists Pw v Ww Hin) as [idx Hv].
      destruct (pw_idx _ _ _ _ _ _ HP _ (proj1 Hv)) as (j & i & s & -> & Hj & Hi & Hs).
      rewrite Q3 in Hs. apply ones_idx in Hs. assert (i = 0) by lia. subst i s. exact (Hn j Hv).
    + destruct (q_roots Px Py Pw co ci S HP w HS) as (_ & E2 & E3). rewrite E2, E3.
      destruct (is_active _ v) eqn:Ea; [|reflexivity]. exfalso. apply (bias_holders Px Py Pw co ci S HP w HS) in Ea as [j Hj]. exact (Hn j Hj).
  - intros v Hv Hn. exfalso. apply Hn. rewrite E5. destruct Hv; auto. congruence.
  - intros v N1 N2 N3. unfold general_conv_backward. now rewrite inactive_test.
Qed.

(** * C55 *)
Lemma C55_proof : C55_statement.
Proof.
  intros R world Px Py Pw co ci S L w groups cin cout W bias X Y dY weight bias_of x dy dt dt' dtw dtb rg rg' rgw rgb
    HL HE HH HG HX HO HF ED HD HOd shape arg plan layer delivered.
  split.
  - intros E1 exchanged back. unfold delivered. eapply serial_gradients; eauto.
  - intros Hm. split; [exact (halo_started world Px L w rzero X x HG HX)|].
    pose proof HL as (_ & HS & _ & _ & _ & _ & _ & _ & _ & _ & (b & xs & EX & Lxs & Nxs) & HY).
    pose proof HY as (b0 & c & xs' & ys & EX' & EY & _). rewrite EX in EX'. inversion EX'; subst b0 c xs'. clear EX'.
    assert (Hwi : within L w (b :: cin :: ys)).
    { pose proof (HF Hm) as A. unfold out_counts in A. rewrite EX, EY in A. exact A. }
    assert (Hmany : length (p_ranks Pw) <> 1%nat) by lia.
    intros pre init eager gf Hpre Hf cotangent back. split.
    + intros v. unfold cotangent, back. eapply cot_ok; eauto.
    + intros pre' init' eager' gb Hpre' Hb. unfold delivered, conv_gradients_delivered.
      split; [|split; [|split; [|split; [|split]]]].
      * intros idx v Hv. eapply dx_blocks with (pre := pre) (pre' := pre'); eauto.
      * intros j i v Hv. eapply dweight_blocks with (pre := pre); eauto.
      * intros j v Hv Hbn. eapply dbias_blocks with (pre := pre); eauto.
      * intros v Hn. eapply dbias_none; eauto.
      * intros v Hv Hn. edestruct (@dx_other R) with (pre := pre) (gb := gb) (v := v) as [A _]; cycle -1; [exact (A Hv Hn)|eauto..].
      * intros v N1 N2 N3. edestruct (@dx_other R) with (pre := pre) (gb := gb) (v := v) as [_ A]; cycle -1; [exact (A N1 N2 N3)|eauto..].
Qed.

Theorem C55_general_conv_gradients : C55_statement.
Proof. exact C55_proof. Qed.

(** The layer of C33's general example: nine workers, three input channels and the
    eight features over workers 0 to 3, four output channels. *)
Definition ex55_dY : tensor Zring := @mkt Zring [1; 4; 8] (fun i => 1 + row_major [1; 4; 8] i).
Definition ex55_dy (v : Z) : tensor Zring :=
  match index_in gc_y v with Some idx => block (balanced [1; 4; 8] (p_shape gc_y)) idx ex55_dY | None => @mkt Zring [0] (fun _ => 0) end.
Definition ex55_d (_ : Z) : Z := 0.
Definition ex55_r (_ : Z) : bool := true.
Definition ex55_back : Z -> tensor Zring :=
  general_back_argument gc_x gc_y gc_w gc_win 1 true ex55_d ex55_d ex55_d ex55_d ex55_r ex55_r ex55_r ex55_r gc_weight gc_bias gc_shape gc_in gc_run ex55_dy.
Definition ex55_ret (v : Z) : tensor Zring :=
  last (h_hist (sync_rounds (history_rounds gc_x (fun v => tshape (gc_arg v)) (fun v => u_recv (gc_plan v))
                               (fun v => u_send (gc_plan v)) [HForward gc_arg; HBackward ex55_back]) cv_zero v)) (@mkt Zring [] (fun _ => 0)).
Definition ex55_dx := general_conv_backward gc_x gc_y gc_w gc_win 1 true ex55_d ex55_d ex55_d ex55_d ex55_r ex55_r ex55_r ex55_r gc_weight gc_bias gc_shape gc_in gc_run ex55_dy ex55_ret.
Definition ex55_dW := general_weight_gradient gc_x gc_y gc_w gc_win 1 true ex55_d ex55_d ex55_d ex55_d ex55_r ex55_r ex55_r ex55_r gc_weight gc_bias gc_shape gc_in gc_run ex55_dy.
Definition ex55_db := general_bias_gradient gc_x gc_y gc_w gc_win 1 true ex55_d ex55_d ex55_d ex55_d ex55_r ex55_r ex55_r ex55_r gc_weight gc_bias gc_shape gc_in gc_run ex55_dy.

Example C55_example :
  conv_layer gc_x gc_y gc_w 2 2 [2] gc_win 1 3 4 gc_W (Some gc_b) gc_X gc_Y /\
  plain 1 gc_x gc_y gc_w /\
  conv_parameters_held gc_w 2 2 gc_win 4 gc_W (Some gc_b) gc_weight gc_bias /\
  feature_given gc_world gc_x gc_L gc_win /\
  holds_blocks gc_x gc_L gc_X gc_in /\ others_pass gc_x gc_y gc_w gc_in /\
  within gc_L gc_win (out_counts gc_X gc_Y) /\
  tshape ex55_dY = tshape gc_Y /\ holds_blocks gc_y (balanced (tshape gc_Y) (p_shape gc_y)) ex55_dY ex55_dy /\ others_pass gc_y gc_x gc_w ex55_dy /\
  same_calls gc_x gc_arg [HForward gc_arg] /\
  map (tat (val (ex55_dx 1))) (indices [1; 2; 4]) = [4234; 4420; 4606; 3214; 4846; 5068; 5290; 3682] /\
  map (tat (val (ex55_dx 1))) (indices [1; 2; 4]) = map (tat (input_gradient (conv_coefficients 4 1 gc_W) gc_win [1; 3; 8] ex55_dY))
    [[0; 0; 4]; [0; 0; 5]; [0; 0; 6]; [0; 0; 7]; [0; 1; 4]; [0; 1; 5]; [0; 1; 6]; [0; 1; 7]] /\
  map (tat (val (ex55_dW 2))) (indices [2; 1; 3]) = [693; 744; 588; 1757; 1992; 1708] /\
  map (tat (val (ex55_dW 2))) (indices [2; 1; 3]) = map (tat (weight_gradient gc_win 4 1 gc_X ex55_dY))
    [[0; 2; 0]; [0; 2; 1]; [0; 2; 2]; [1; 2; 0]; [1; 2; 1]; [1; 2; 2]] /\
  (exists t, ex55_db 4 = Some (Ok t) /\ map (tat t) (indices [2]) = [164; 228]) /\ ex55_db 5 = None /\
  tshape (val (ex55_dx 8)) = [1; 0].
Proof.
  pose proof C33_general_example as (A & B & C & D & E & F & G & _). do 7 (split; [assumption|]). split; [reflexivity|].
  split; [split; [reflexivity|]; intros idx v Hv; unfold ex55_dy; apply index_in_spec in Hv; [rewrite Hv|part_ok_tac]; apply teq_refl|].
  split; [intros v _ Hn; unfold ex55_dy; apply index_in_none in Hn; rewrite Hn; split; [repeat constructor; lia|discriminate]|].
  split; [repeat constructor|].
  do 4 (split; [vm_compute; reflexivity|]). split; [eexists; split; vm_compute; reflexivity|]. split; vm_compute; reflexivity.
Qed.

Print Assumptions C55_general_conv_gradients.
