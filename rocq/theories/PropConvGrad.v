(** All gradients of the convolution over distributed features: C53. *)

From Verif Require Import Prelude SpecIndex SpecLayout SpecPartition SpecHalo ModelSlicing ModelDecomposition
  ModelPartition ProofSlicing ProofDecomposition ProofPartition Ring Tensor ModelCollectives PropCollectives PropExchange
  ModelUtilities PropUtilities Blocks P2P Rounds ModelRepartition ProofTransfer PropRepartition ModelHaloMixin ProofHaloMixin PropHaloMixin
  ModelHaloExchange PropHaloExchange ModelFeatureLayer SpecFeature ProofFeatureLayer PropFeatureLayer PropFeatureConv PropFeatureCommon
  ModelConv PropConvGeneral ModelGradients ProofGradients PropUpsampleGrad ModelFeatureGrad SpecFeatureGrad ProofFeatureGrad PropFeatureGrad.
Local Open Scope Z_scope.

(** The layer's backward pass, from the halo layer's results [exchanged] of the
    forward and [back] of the backward pass: the workers' input gradients are the
    blocks of the sequential gradient; the first worker, which has the parameters,
    gets the sequential gradients of weight and bias. *)
Definition conv_gradients_ok {R : CRing} (P : part) (L : layout) (w : window) (cout groups : Z) (use_bias : bool)
    (dt : Z -> Z) (rg : Z -> bool) (weight bias : Z -> tensor R) (G dY : tensor R) (x dy exchanged back : Z -> tensor R) : Prop :=
  let shape v := tshape (x v) in
  let root := hd 0 (p_ranks P) in
  (forall idx v, worker_at P idx v ->
     exists t, conv_gradient P w cout groups shape weight dy back v = Ok t /\
               teq t (block L idx (input_gradient (conv_coefficients cout groups (weight root)) w (tshape G) dY))) /\
  (exists t, conv_weight_gradient P w cout groups dt rg shape weight x exchanged dy root = Ok t /\
             teq t (weight_gradient w cout groups G dY)) /\
  (use_bias = true -> exists t, conv_bias_gradient P cout dt rg bias dy root = Ok t /\ teq t (bias_gradient cout dY)) /\
  (forall v, ~ In v (p_ranks P) -> conv_gradient P w cout groups shape weight dy back v = Ok (dy v)).

Definition C53_statement : Prop :=
  forall (R : CRing) (world : list Z) (P : part) (L : layout) (w : window) (cout groups : Z) (use_bias : bool)
    (dt : Z -> Z) (rg : Z -> bool) (weight bias : Z -> tensor R) (G Y dY : tensor R) (x dy : Z -> tensor R),
    feature_given world P L w -> nth 1 (p_shape P) 0 = 1 ->
    conv_parameters P w (nth 1 (tshape G) 0) cout groups use_bias weight bias ->
    is_sequential (root_conv P w cout groups use_bias weight bias) (fun _ => cout) rzero w G Y ->
    holds_blocks P L G x -> ((1 < length (p_ranks P))%nat -> within L w (out_counts G Y)) ->
    tshape dY = tshape Y -> holds_blocks P (balanced (tshape Y) (p_shape P)) dY dy ->
    let shape v := tshape (x v) in
    let arg := halo_argument P w rzero shape x in
    let plan := halo_plan P w shape in
    let back := conv_back_argument P w cout groups dt rg shape weight (fun v => tshape (arg v)) dy in
    let layer := history_rounds P (fun v => tshape (arg v)) (fun v => u_recv (plan v)) (fun v => u_send (plan v)) in
    (* a single worker has no halo layer *)
    (length (p_ranks P) = 1%nat -> forall exchanged back,
       conv_gradients_ok P L w cout groups use_bias dt rg weight bias G dY x dy exchanged back) /\
    ((1 < length (p_ranks P))%nat ->
       (forall v, In v world ->
          conv_cotangent P w cout groups dt rg shape weight (fun v => tshape (arg v)) dy v = Ok (back v)) /\
       halo_ready world P w rzero x /\
       forall pre pre' init init' eager eager' gf gb,
         same_calls P arg pre -> same_calls P arg pre' ->
         ends world (layer (pre ++ [HForward arg])) init eager gf ->
         ends world (layer (pre' ++ [HBackward back])) init' eager' gb ->
         conv_gradients_ok P L w cout groups use_bias dt rg weight bias G dY x dy (halo_result gf) (halo_result gb)).

(** * Layers that look at one output channel

    The gradient of a parameter is a pairing with the output of such a layer. *)
Section Pick.
  Context {R : CRing}.
  Add Ring R_pick : (rth R).
  Definition reading := Z -> (Z -> list Z -> R) -> R.
  Definition pick (c : Z) (h : reading) : @kernel R := fun cin c' g => if c' =? c then h cin g else rzero.
  Definition reads_window (w : window) (h : reading) : Prop :=
    forall cin g g', (forall ch t, 0 <= ch < cin -> valid_index (w_kernel w) t -> g ch t = g' ch t) -> h cin g = h cin g'.

  Lemma pick_local w c h cout : reads_window w h -> kernel_local w (pick c h) cout.
  Proof. intros Hh cin c' g g' E _. unfold pick. destruct (c' =? c); auto. Qed.

  (** What the weight's element (c, j, k) is multiplied with, and the bias's. *)
  Definition read_weight (cout groups c j : Z) (k : list Z) : reading :=
    fun cin g => let ch := c / (cout / groups) * (cin / groups) + j in
                 if (0 <=? ch) && (ch <? cin) then g ch k else rzero.
  Definition read_bias : reading := fun _ _ => rone.

  Lemma read_weight_local w cout groups c j k : valid_index (w_kernel w) k -> reads_window w (read_weight cout groups c j k).
  Proof.
    intros Hk cin g g' E. unfold read_weight. cbv zeta. destruct (andb _ _) eqn:B; auto.
    apply andb_true_iff in B as [B1 B2]. apply Z.leb_le in B1. apply Z.ltb_lt in B2. apply E; auto.
  Qed.

  (** The sum over the outputs of channel [c], [V] being what they see. *)
  Definition reading_sum (h : reading) (c cin : Z) (dy : tensor R) (V : Z -> list Z -> Z -> list Z -> R) : R :=
    sumf (zrange (nth 0 (tshape dy) 0)) (fun b' => sumf (indices (skipn 2 (tshape dy))) (fun o =>
      rmul (tat dy (b' :: c :: o)) (h cin (V b' o)))).

  Lemma pick_inner (y dy : tensor R) b cout ys c cin h V :
    tshape y = b :: cout :: ys -> tshape dy = tshape y -> 0 <= c < cout ->
    (forall b' c' o, valid_index (b :: cout :: ys) (b' :: c' :: o) -> tat y (b' :: c' :: o) = pick c h cin c' (V b' o)) ->
    inner y dy = reading_sum h c cin dy V.
  Proof.
    intros Ey Ed Hc HV. unfold inner, reading_sum. rewrite Ed, Ey. cbn [nth skipn]. rewrite sum_cons.
    apply sumf_ext. intros b' Hb'. apply in_zrange in Hb'. rewrite sum_cons.
    rewrite (sumf_single (zrange cout) _ c); [|apply zrange_nodup|now apply in_zrange|].
    - apply sumf_ext. intros o Ho. apply in_indices in Ho. rewrite HV by (do 2 (apply valid_index_cons; split; auto)).
      unfold pick. rewrite Z.eqb_refl. ring.
    - intros c' Hc' Hn. apply in_zrange in Hc'. apply sumf_zero. intros o Ho. apply in_indices in Ho.
      rewrite HV by (do 2 (apply valid_index_cons; split; auto)). unfold pick. destruct (Z.eqb_spec c' c); [congruence|ring].
  Qed.

  (** torch's gradients are such sums. *)
  Lemma weight_reading w cout groups (t dy : tensor R) c j k :
    0 < cout -> 0 < groups -> (groups | cout) -> 0 <= c < cout -> 0 <= j < nth 1 (tshape t) 0 / groups ->
    tat (conv_weight_backward w cout groups t dy) (c :: j :: k) =
    reading_sum (read_weight cout groups c j k) c (nth 1 (tshape t) 0) dy (fun b' o ch k => tat t (b' :: ch :: window_point w o k)).
  Proof.
    intros H1 H2 H3 Hc Hj. unfold conv_weight_backward, reading_sum, read_weight. cbv zeta. cbn [tat].
    assert (Hr : 0 <= c / (cout / groups) * (nth 1 (tshape t) 0 / groups) + j < nth 1 (tshape t) 0) by (now apply group_channel).
    apply sumf_ext. intros b' _. apply sumf_ext. intros o _.
    rewrite (proj2 (Z.leb_le _ _)) by lia. rewrite (proj2 (Z.ltb_lt _ _)) by lia. reflexivity.
  Qed.
  Lemma bias_reading cout cin (dy : tensor R) c V :
    tat (conv_bias_backward cout dy) [c] = reading_sum read_bias c cin dy V.
  Proof.
    unfold conv_bias_backward, reading_sum, read_bias. cbn [tat nth].
    apply sumf_ext. intros b' _. apply sumf_ext. intros o _. ring.
  Qed.

  (** And so are the sequential gradients. *)
  Lemma weight_reading_sequential w cout groups (G dY : tensor R) c j k :
    0 < cout -> 0 < groups -> (groups | cout) -> 0 <= c < cout -> 0 <= j < nth 1 (tshape G) 0 / groups ->
    tat (weight_gradient w cout groups G dY) (c :: j :: k) =
    reading_sum (read_weight cout groups c j k) c (nth 1 (tshape G) 0) dY
      (fun b' o ch k => value_at G rzero (b' :: ch :: seen_point (length (skipn 2 (tshape G))) w o k)).
  Proof.
    intros H1 H2 H3 Hc Hj. unfold weight_gradient, reading_sum, read_weight. cbv zeta. cbn [tat].
    assert (Hr : 0 <= c / (cout / groups) * (nth 1 (tshape G) 0 / groups) + j < nth 1 (tshape G) 0) by (now apply group_channel).
    apply sumf_ext. intros b' _. apply sumf_ext. intros o _.
    rewrite (proj2 (Z.leb_le _ _)) by lia. rewrite (proj2 (Z.ltb_lt _ _)) by lia. reflexivity.
  Qed.
  Lemma bias_reading_sequential cout cin (dY : tensor R) c V :
    tat (bias_gradient cout dY) [c] = reading_sum read_bias c cin dY V.
  Proof.
    unfold bias_gradient, reading_sum, read_bias. cbn [tat nth].
    apply sumf_ext. intros b' _. apply sumf_ext. intros o _. ring.
  Qed.

  (** The sequential layer that picks. *)
  Definition picked (w : window) (cout : Z) (ys : list Z) (h : reading) (c : Z) (G : tensor R) : tensor R :=
    mkt (nth 0 (tshape G) 0 :: cout :: ys) (fun i => match i with
      | b' :: c' :: o => pick c h (nth 1 (tshape G) 0) c' (fun ch t => value_at G rzero (b' :: ch :: seen_point (length (skipn 2 (tshape G))) w o t))
      | _ => rzero
      end).

  Lemma picked_sequential w cout b cin xs ys h c (G : tensor R) : tshape G = b :: cin :: xs -> counts xs w ys ->
    0 < b -> 0 < cin -> Forall (fun n => 0 < n) ys ->
    is_sequential (pick c h) (fun _ => cout) rzero w G (picked w cout ys h c G).
  Proof.
    intros EG Hc Hb Hc0 Hys. exists b, cin, xs, ys. split; [auto|]. split; [cbn [picked tshape]; now rewrite EG|].
    do 4 (split; [auto|]). intros b' c' o _. cbn [picked tat]. rewrite EG. reflexivity.
  Qed.

  Lemma picked_inner w cout b cin xs ys h c (G dY : tensor R) : tshape G = b :: cin :: xs -> tshape dY = b :: cout :: ys -> 0 <= c < cout ->
    inner (picked w cout ys h c G) dY =
    reading_sum h c cin dY (fun b' o ch k => value_at G rzero (b' :: ch :: seen_point (length (skipn 2 (tshape G))) w o k)).
  Proof.
    intros EG ED Hc. rewrite (pick_inner (picked w cout ys h c G) dY b cout ys c cin h
      (fun b' o ch k => value_at G rzero (b' :: ch :: seen_point (length (skipn 2 (tshape G))) w o k))); auto.
    - cbn [picked tshape]. now rewrite EG.
    - cbn [picked tshape]. now rewrite EG.
    - intros b' c' o _. cbn [picked tat]. rewrite EG. reflexivity.
  Qed.

  (** Every torch layer without padding. *)
  Lemma sliding_reading w cout h c (t y dy : tensor R) : torch_sliding (pick c h) (fun _ => cout) w t = Ok y ->
    tshape dy = tshape y -> 0 <= c < cout ->
    inner y dy = reading_sum h c (nth 1 (tshape t) 0) dy (fun b' o ch k => tat t (b' :: ch :: window_point w o k)).
  Proof.
    intros Hy Hd Hc. destruct (sliding_shape _ _ _ _ _ Hy) as (b & c0 & xs & Et & Ey & Vy).
    apply (pick_inner y dy b cout (plain_out w xs) c); auto. rewrite Et. cbn [nth]. intros b' c' o _. apply Vy.
  Qed.
End Pick.

(** * Several workers *)
Section Several.
  Context {R : CRing}.
  Variables (world : list Z) (P : part) (L : layout) (w : window) (cout groups : Z) (use_bias : bool).
  Variables (dt : Z -> Z) (rg : Z -> bool) (weight bias : Z -> tensor R) (G dY : tensor R) (x dy : Z -> tensor R).
  Hypothesis HG : feature_given world P L w.
  Hypothesis H1 : nth 1 (p_shape P) 0 = 1.
  Variables (b cin : Z) (xs ys : list Z).
  Hypothesis EG : tshape G = b :: cin :: xs.
  Hypothesis HW : conv_parameters P w cin cout groups use_bias weight bias.
  Hypothesis Hcnt : counts xs w ys.
  Hypothesis Hb : 0 < b.
  Hypothesis Hc0 : 0 < cin.
  Hypothesis Hys : Forall (fun n => 0 < n) ys.
  Hypothesis HB : holds_blocks P L G x.
  Hypothesis Hmany : (1 < length (p_ranks P))%nat.
  Hypothesis Hin : within L w (b :: cin :: ys).
  Hypothesis ED : tshape dY = b :: cout :: ys.
  Hypothesis HD : holds_blocks P (balanced (b :: cout :: ys) (p_shape P)) dY dy.
  Let shape v := tshape (x v).
  Let arg := halo_argument P w rzero shape x.
  Let plan := halo_plan P w shape.
  Let back := conv_back_argument P w cout groups dt rg shape weight (fun v => tshape (arg v)) dy.
  Let rounds := history_rounds (R := R) P (fun v => tshape (arg v)) (fun v => u_recv (plan v)) (fun v => u_send (plan v)).
  Let root := hd 0 (p_ranks P).
  Let ny := b :: cin :: ys.

  Lemma sv_positive : 0 < cout /\ 0 < groups /\ (groups | cout).
  Proof. destruct HW as (A & B & C & _). auto. Qed.
  Lemma sv_shapes idx v : worker_at P idx v -> tshape (x v) = block_shape L idx.
  Proof. intros Hv. destruct HB as [_ B]. apply (B idx v Hv). Qed.
  Lemma sv_nonneg v : In v (p_ranks P) -> nonneg_shape (tshape (weight v)) /\ nonneg_shape (tshape (bias v)).
  Proof. apply HW. Qed.

  Lemma sv_out : layout_ok (balanced (b :: cout :: ys) (p_shape P)) /\ layout_workers (balanced (b :: cout :: ys) (p_shape P)) = p_shape P.
  Proof.
    clear - HG EG HW Hcnt Hb Hys HB. assert (HPp : part_ok P) by apply HG. destruct HPp as (_ & _ & Hpos & _). destruct HW as (A & _). split.
    - apply balanced_ok; auto. constructor; [lia|]. constructor; [lia|]. eapply Forall_impl; [|exact Hys]. cbn. lia.
    - apply balanced_workers; auto. cbn [length]. destruct Hcnt as [El _]. rewrite El.
      destruct HG as (_ & _ & _ & _ & HWk & Hl & _). destruct HB as [EL _]. rewrite <- HWk, layout_workers_length.
      rewrite <- (layout_shape_length L), <- EL, EG. reflexivity.
  Qed.

  (** The weight that a worker uses. *)
  Definition copy (v : Z) : tensor R := match conv_parameter P dt rg weight v with Ok t => t | Raise _ => weight v end.
  Lemma copy_ok v : In v (p_ranks P) -> conv_parameter P dt rg weight v = Ok (copy v) /\ teq (copy v) (weight root).
  Proof.
    intros Hv. destruct (parameter_ok world P L w HG dt rg weight v) as (t & E & T); auto.
    - intros u Hu. now apply sv_nonneg.
    - unfold copy. rewrite E. auto.
  Qed.
  Let f0 : @kernel R := conv_kernel w cout groups (weight root) None.
  Let fs v : @kernel R := conv_kernel w cout groups (copy v) None.

  Lemma fs_same v c' g : In v (p_ranks P) -> 0 <= c' < cout -> fs v cin c' g = f0 cin c' g.
  Proof. intros Hv Hc. apply conv_teq; auto; [apply HW|now apply copy_ok|apply HW]. Qed.

  Lemma sv_many : Nat.eqb (length (p_ranks P)) 1 = false.
  Proof. apply Nat.eqb_neq. lia. Qed.

  Lemma sv_back idx v : worker_at P idx v ->
    conv_cotangent P w cout groups dt rg shape weight (fun v => tshape (arg v)) dy v =
    Ok (local_back L w idx (conv_coefficients cout groups (copy v)) (dy v)).
  Proof.
    intros Hv. pose proof (worker_at_In _ _ _ Hv) as Hr. unfold conv_cotangent.
    rewrite (proj2 (is_active_spec _ _) Hr), sv_many. cbn [negb]. rewrite (proj1 (copy_ok v Hr)). cbn [rbind].
    exact (ow_back world P L w HG ny x sv_shapes _ dy idx v Hv).
  Qed.
  Lemma sv_back_inactive v : ~ In v (p_ranks P) ->
    conv_cotangent P w cout groups dt rg shape weight (fun v => tshape (arg v)) dy v = Ok (dy v).
  Proof. intros Hv. unfold conv_cotangent. apply is_active_false in Hv. now rewrite Hv. Qed.

  Lemma sv_start v : In v world ->
    conv_cotangent P w cout groups dt rg shape weight (fun v => tshape (arg v)) dy v = Ok (back v).
  Proof.
    intros _. unfold back, conv_back_argument. destruct (in_dec Z.eq_dec v (p_ranks P)) as [Hr|Hr].
    - destruct (worker_at_exists P v) as [idx Hi]; [apply HG|auto|]. now rewrite (sv_back idx v Hi).
    - now rewrite sv_back_inactive.
  Qed.

  Section Runs.
    Variables (pre pre' : list (@call R)) (init init' : Z -> @hst R) (eager eager' : Z -> Z -> Z -> nat -> bool) (gf gb : @gst (@hst R) (tensor R)).
    Hypothesis Hp : same_calls P arg pre.
    Hypothesis Hp' : same_calls P arg pre'.
    Hypothesis Hf : ends world (rounds (pre ++ [HForward arg])) init eager gf.
    Hypothesis Hb' : ends world (rounds (pre' ++ [HBackward back])) init' eager' gb.

    Lemma sv_input idx v : worker_at P idx v ->
      exists t, conv_gradient P w cout groups shape weight dy (halo_result gb) v = Ok t /\
                teq t (block L idx (input_gradient (conv_coefficients cout groups (weight root)) w (tshape G) dY)).
    Proof.
      intros Hv. destruct sv_positive as (A & B & C). pose proof (worker_at_In _ _ _ Hv) as Hr.
      unfold conv_gradient. rewrite (proj2 (is_active_spec _ _) Hr), sv_many. cbn [negb]. rewrite EG.
      assert (EL : layout_shape L = b :: cin :: xs) by (destruct HB as [E _]; congruence).
      exact (gradient_blocks_any world P L w HG f0 fs (fun _ => cout) (conv_coefficients cout groups (weight root))
        (fun v => conv_coefficients cout groups (copy v))
        (C51_convolution_kernels R w cout groups (weight root) A B C)
        (fun v _ => C51_convolution_kernels R w cout groups (copy v) A B C) b cin xs ys
        fs_same (fun _ _ => or_introl H1) EL Hcnt Hb Hc0 (Z.lt_le_incl _ _ A) Hys Hin x dy back dY sv_shapes ED HD
        _ _ _ (ow_planned world P L w HG ny x sv_shapes)
        (fun i u Hu => f_equal (fun r => match r with Ok t => t | Raise _ => dy u end) (sv_back i u Hu))
        (fun u Hu => f_equal (fun r => match r with Ok t => t | Raise _ => dy u end) (sv_back_inactive u Hu))
        pre' init' eager' gb (ow_calls world P L w HG ny x sv_shapes pre' Hp') Hb' idx v Hv).
    Qed.

    (** The torch layer's input. *)
    Let seen v := general_input w P shape x (halo_result gf) v.
    Lemma sv_seen idx v : worker_at P idx v ->
      conv_seen P w shape x (halo_result gf) v = Ok (seen v) /\ nth 1 (tshape (seen v)) 0 = cin.
    Proof.
      intros Hv. split.
      - unfold conv_seen, seen, general_input. rewrite sv_many.
        pose proof (fg_setup world P L w HG shape sv_shapes idx v Hv) as E. rewrite E. reflexivity.
      - destruct (needed_windows world P L w rzero G x HG b cin xs ys EG Hcnt Hb Hc0 Hys HB Hin pre init eager gf idx v Hp Hf Hv)
          as (es & E & _). change (general_input w P (fun v0 => tshape (x v0)) x (halo_result gf) v) with (seen v) in E.
        rewrite E. cbn [nth]. rewrite H1. unfold subshape1. rewrite Z.div_1_r, Z.mod_1_r.
        assert (Hi : 0 <= nth 1 idx 0) by (apply nth_nonneg; destruct Hv as [Hv _]; clear - Hv; induction Hv; constructor; auto; lia).
        rewrite (proj2 (Z.ltb_ge _ _)) by lia. lia.
    Qed.

    Lemma sv_reading h c : reads_window w h -> 0 <= c < cout ->
      sumf (p_ranks P) (fun v => reading_sum h c cin (dy v) (fun b' o ch k => tat (seen v) (b' :: ch :: window_point w o k))) =
      reading_sum h c cin dY (fun b' o ch k => value_at G rzero (b' :: ch :: seen_point (length (skipn 2 (tshape G))) w o k)).
    Proof.
      intros Hh Hc. destruct sv_positive as (A & _).
      set (Y' := picked w cout ys h c G).
      assert (EY' : tshape Y' = b :: cout :: ys) by (cbn [Y' picked tshape]; now rewrite EG).
      destruct (C30_proof R world P L w (pick c h) (fun _ => cout) rzero G Y' x HG) as (_ & _ & K); auto.
      { now apply pick_local. }
      { now apply (picked_sequential w cout b cin xs ys h c G). }
      { unfold out_counts. rewrite EG, EY'. exact Hin. }
      destruct (K pre init eager gf Hp Hf) as [K1 _]. clear K.
      set (y := fun v => match feature_output P w (pick c h) (fun _ => cout) shape x (halo_result gf) v with Ok t => t | Raise _ => x v end).
      assert (Hy : holds_blocks P (balanced (b :: cout :: ys) (p_shape P)) Y' y).
      { split; [rewrite EY', <- (proj1 HD); now rewrite ED|]. intros idx v Hv.
        destruct (K1 idx v Hv) as (t & Et & Tt). rewrite EY' in Tt. unfold y, shape. rewrite Et. exact Tt. }
      assert (HPo : part_ok P) by apply HG.
      destruct sv_out as [O1 O2].
      rewrite <- (picked_inner w cout b cin xs ys h c G dY EG ED Hc).
      fold Y'. rewrite <- (inner_members P (balanced (b :: cout :: ys) (p_shape P)) Y' dY y dy HPo O1 O2 Hy HD).
      apply sumf_ext. intros v Hr. destruct (worker_at_exists P v HPo Hr) as [idx Hv].
      rewrite <- (proj2 (sv_seen idx v Hv)). symmetry. apply (sliding_reading w cout); auto.
      - destruct (K1 idx v Hv) as (t & Et & _). unfold y, shape. rewrite Et. 
        unfold feature_output in Et. pose proof (fg_setup world P L w HG shape sv_shapes idx v Hv) as E.
        unfold seen, general_input. rewrite E. unfold shape in E. rewrite E in Et. exact Et.
      - destruct Hy as [_ Hy], HD as [_ HD']. destruct (Hy idx v Hv) as [-> _], (HD' idx v Hv) as [-> _]. reflexivity.
    Qed.

    (** The backward of the parameters' broadcast. *)
    Lemma broadcast_back (param grads : Z -> tensor R) s :
      (forall v, In v (p_ranks P) -> nonneg_shape (tshape (param v))) -> tshape (param root) = s ->
      (forall v, In v (p_ranks P) -> tshape (grads v) = s) ->
      exists t, broadcast_layer_backward (weight_part P) P false false false false dt rg param grads root = Ok t /\ tshape t = s /\
        forall i, valid_index s i -> tat t i = sumf (p_ranks P) (fun v => tat (grads v) i).
    Proof.
      intros Hn Es Eg. pose proof (root_in world P L w HG) as Hroot. fold root in Hroot.
      destruct (C15_proof (weight_part P) P false false false false dt rg (weight_accepted world P L w HG)) as (src & S1 & _ & K).
      assert (Esrc : forall d, In d (p_ranks P) -> src d = root).
      { intros d Hd. destruct (S1 d Hd) as [E|[]]. symmetry. exact E. }
      destruct (K R param grads) as (_ & A & _).
      - intros v Hv. split; [|discriminate]. apply Hn. destruct Hv as [[<-|[]]|Hv]; auto.
      - intros v Hv. split; [|discriminate]. rewrite Eg; [|destruct Hv as [[<-|[]]|Hv]; auto]. rewrite <- Es. apply Hn; auto.
      - intros d Hd. rewrite Eg by auto. destruct (parameter_ok world P L w HG dt rg param d Hn Hd) as (t & Et & [Tt _]).
        unfold conv_parameter in Et. rewrite Et. cbn [val]. rewrite Tt. symmetry. exact Es.
      - destruct (A root) as (t & E & Et & V); [now left|]. exists t. split; [exact E|]. rewrite Es in Et, V. split; auto.
        intros i Hi. rewrite V by auto. f_equal. clear - Esrc.
        assert (Q : forall l, (forall d, In d l -> src d = root) -> filter (fun d => src d =? root) l = l).
        { induction l as [|d l IH]; intros Hl; auto. cbn [filter]. rewrite Hl by (now left). rewrite Z.eqb_refl. f_equal. apply IH.
          intros; apply Hl; now right. }
        now apply Q.
    Qed.

    Lemma sv_weight : exists t, conv_weight_gradient P w cout groups dt rg shape weight x (halo_result gf) dy root = Ok t /\
      teq t (weight_gradient w cout groups G dY).
    Proof.
      destruct sv_positive as (A & B & C). assert (HPo : part_ok P) by apply HG. unfold conv_weight_gradient. rewrite sv_many.
      set (grads := fun u => match conv_local_weight_grad P w cout groups shape x (halo_result gf) dy u with Ok t => t | Raise _ => dy u end).
      assert (Eg : forall v, In v (p_ranks P) -> grads v = conv_weight_backward w cout groups (seen v) (dy v) /\ nth 1 (tshape (seen v)) 0 = cin).
      { intros v Hr. destruct (worker_at_exists P v HPo Hr) as [idx Hv]. destruct (sv_seen idx v Hv) as [E1 E2]. split; auto.
        unfold grads, conv_local_weight_grad. rewrite E1. reflexivity. }
      destruct (broadcast_back weight grads (cout :: cin / groups :: w_kernel w)) as (t & E & S & V).
      - intros v Hv. now apply sv_nonneg.
      - apply HW.
      - intros v Hv. destruct (Eg v Hv) as [-> E]. cbn [conv_weight_backward tshape]. now rewrite E.
      - exists t. split; [exact E|]. split; [rewrite S; cbn [weight_gradient tshape]; rewrite EG; reflexivity|].
        rewrite S. intros i Hi. rewrite V by auto.
        apply valid_index_cons_inv in Hi as (c & i' & -> & Hc & Hi). apply valid_index_cons_inv in Hi as (j & k & -> & Hj & Hk).
        rewrite weight_reading_sequential by (rewrite ?EG; auto). rewrite EG at 1. cbn [nth].
        rewrite <- (sv_reading (read_weight cout groups c j k) c) by (auto using read_weight_local).
        apply sumf_ext. intros v Hv. destruct (Eg v Hv) as [-> En]. rewrite weight_reading by (rewrite ?En; auto). now rewrite En.
    Qed.

    Lemma sv_bias : use_bias = true -> exists t, conv_bias_gradient P cout dt rg bias dy root = Ok t /\ teq t (bias_gradient cout dY).
    Proof.
      intros Hu. destruct sv_positive as (A & B & C). unfold conv_bias_gradient. rewrite sv_many.
      destruct (broadcast_back bias (conv_local_bias_grad cout dy) [cout]) as (t & E & S & V).
      - intros v Hv. now apply sv_nonneg.
      - apply HW; auto.
      - reflexivity.
      - exists t. split; [exact E|]. split; [exact S|]. rewrite S. intros i Hi. rewrite V by auto.
        apply valid_index_cons_inv in Hi as (c & i' & -> & Hc & Hi). apply valid_index_nil in Hi. subst i'.
        rewrite (bias_reading_sequential cout cin dY c (fun b' o ch k => value_at G rzero (b' :: ch :: seen_point (length (skipn 2 (tshape G))) w o k))).
        rewrite <- (sv_reading read_bias c); auto; [|now intros ? ? ? ?].
        apply sumf_ext. intros v Hv. apply bias_reading.
    Qed.

    Lemma sv_ok : conv_gradients_ok P L w cout groups use_bias dt rg weight bias G dY x dy (halo_result gf) (halo_result gb).
    Proof.
      split; [exact sv_input|]. split; [exact sv_weight|]. split; [exact sv_bias|].
      intros v Hv. unfold conv_gradient. apply is_active_false in Hv. now rewrite Hv.
    Qed.
  End Runs.
End Several.

(** * One worker *)
Section Single.
  Context {R : CRing}.

  Lemma pad_nothing (total : list (Z * Z)) (x : tensor R) :
    length total = length (tshape x) -> Forall (fun p => 0 <= fst p /\ 0 <= snd p) total ->
    zsum (map (fun p => fst p + snd p) total) = 0 ->
    exists t, f_pad rzero (distdl_padding_to_torch_padding total) (length (tshape x)) x = Some t /\ teq t x.
  Proof.
    intros Hl Hn E. assert (Z0 : total = repeat (0, 0) (length total)).
    { clear Hl. assert (Q : forall l, Forall (fun p : Z * Z => 0 <= fst p /\ 0 <= snd p) l -> 0 <= zsum (map (fun p => fst p + snd p) l)).
      { intros l F. induction F as [|p l Hp F IH]; cbn [map zsum fold_right] in *; [lia|]. fold (zsum (map (fun p : Z * Z => fst p + snd p) l)) in *. lia. }
      induction total as [|p l IH]; auto. inversion Hn as [|? ? Hp Hn']; subst. pose proof (Q l Hn'). cbn [map zsum fold_right] in E.
      fold (zsum (map (fun p : Z * Z => fst p + snd p) l)) in E. cbn [length repeat]. rewrite <- IH by (auto; lia). f_equal.
      destruct p. cbn [fst snd] in *. f_equal; lia. }
    destruct (C42_proof R rzero total x Hl) as (t & E1 & E2 & E3). exists t. split; auto.
    assert (Es : tshape t = tshape x).
    { rewrite E2, Z0, Hl. clear. induction (tshape x); auto. cbn [length repeat map2 fst snd]. f_equal; auto. lia. }
    split; auto. intros i Hi. pose proof (valid_index_length _ _ Hi) as Li. rewrite Es in Hi, Li. rewrite E3 by lia. cbn [padded tat].
    assert (Ei : map2 (fun (k : Z) (p : Z * Z) => k - fst p) i total = i).
    { rewrite Z0, Hl, <- Li. clear. induction i; auto. cbn [length repeat map2 fst]. f_equal; auto. lia. }
    rewrite Ei, padded_test by lia. now rewrite (proj2 (inside_spec (tshape x) i)).
  Qed.

  Lemma inner_teq (a a' b b' : tensor R) : teq a a' -> teq b b' -> tshape a = tshape b -> inner a b = inner a' b'.
  Proof.
    intros [S A] [S' B] E. unfold inner. rewrite <- S. apply sumf_ext. intros i Hi. apply in_indices in Hi.
    rewrite A by auto. rewrite B by (now rewrite <- E). reflexivity.
  Qed.

  Variables (w : window) (cout groups : Z) (G dY : tensor R) (b cin : Z) (xs ys : list Z).
  Hypothesis Hw : window_ok (length (w_kernel w)) w.
  Hypothesis EG : tshape G = b :: cin :: xs.
  Hypothesis Hlen : length (tshape G) = S (S (length (w_kernel w))).
  Hypothesis Hcnt : counts xs w ys.
  Hypothesis Hb : 0 < b.
  Hypothesis Hc0 : 0 < cin.
  Hypothesis Hys : Forall (fun n => 0 < n) ys.
  Hypothesis Hcout : 0 < cout.
  Hypothesis Hgr : 0 < groups.
  Hypothesis Hdiv : (groups | cout).
  Hypothesis ED : tshape dY = b :: cout :: ys.

  Lemma own_length : length (own_padding w) = S (S (length (w_kernel w))).
  Proof. unfold own_padding. cbn [length]. rewrite map_length. destruct Hw as (_ & _ & -> & _). reflexivity. Qed.
  Lemma own_nonneg : Forall (fun p => 0 <= fst p /\ 0 <= snd p) (own_padding w).
  Proof.
    unfold own_padding. do 2 (constructor; [cbn; lia|]). apply Forall_forall. intros p Hp. apply in_map_iff in Hp as (q & <- & Hq).
    destruct Hw as (_ & _ & _ & _ & _ & _ & H & _). rewrite Forall_forall in H. cbn [fst snd]. split; now apply H.
  Qed.
  Definition grown : list Z := map2 (fun n p => n + fst p + snd p) (b :: cin :: xs) (own_padding w).

  Lemma own_pad (x : tensor R) : tshape x = b :: cin :: xs ->
    exists t, f_pad rzero (distdl_padding_to_torch_padding (own_padding w)) (length (tshape x)) x = Some t /\ tshape t = grown.
  Proof.
    intros Ex. destruct (C42_proof R rzero (own_padding w) x) as (t & E1 & E2 & _); [rewrite own_length, Ex, <- EG; now symmetry|].
    exists t. split; auto. rewrite E2, Ex. reflexivity.
  Qed.

  (** The output of a kernel, on the padded input. *)
  Lemma single_output (f : @kernel R) (X Y x t : tensor R) :
    kernel_local w f (fun _ => cout) -> is_sequential f (fun _ => cout) rzero w X Y -> tshape X = b :: cin :: xs -> teq x X ->
    f_pad rzero (distdl_padding_to_torch_padding (own_padding w)) (length (tshape x)) x = Some t ->
    exists y, torch_sliding f (fun _ => cout) w t = Ok y /\ teq y Y.
  Proof.
    intros HK HS EX Hx Et. destruct (padded_serial f (fun _ => cout) rzero w X Y x) as (y & Ey & Ty); auto.
    - rewrite EX, <- EG. exact Hlen.
    - exists y. split; auto. unfold torch_padded in Ey. unfold own_padding in Et. rewrite Et in Ey. exact Ey.
  Qed.

  Variables (x dy : tensor R).
  Hypothesis Hx : teq x G.
  Hypothesis Hdy : teq dy dY.

  Lemma single_input (wt : tensor R) : tshape wt = cout :: cin / groups :: w_kernel w ->
    exists t, pad_backward (own_padding w)
                (sliding_backward (conv_coefficients cout groups wt) w (map2 (fun n p => n + fst p + snd p) (tshape x) (own_padding w)) dy) = Ok t /\
              teq t (input_gradient (conv_coefficients cout groups wt) w (tshape G) dY).
  Proof.
    intros Ew. assert (Ex : tshape x = b :: cin :: xs) by (destruct Hx; congruence). rewrite Ex. fold grown.
    set (K := conv_coefficients cout groups wt). set (f := conv_kernel w cout groups wt None).
    set (e := sliding_backward K w grown dy).
    pose proof (C51_convolution_kernels R w cout groups wt Hcout Hgr Hdiv) as HK. fold f K in HK.
    assert (Se : tshape e = grown) by reflexivity.
    assert (Q : forall u : tensor R, tshape u = b :: cin :: xs -> exists dx, pad_backward (own_padding w) e = Ok dx /\ tshape dx = b :: cin :: xs /\
              inner u dx = inner u (input_gradient K w (tshape G) dY)).
    { intros u Eu. destruct (pad_adjoint (own_padding w) u e) as (t0 & dx & E1 & E2 & E3 & E4).
      { rewrite own_length, Eu, <- EG. now symmetry. }
      { exact own_nonneg. }
      { rewrite Se, Eu. reflexivity. }
      exists dx. split; auto. split; [congruence|]. rewrite <- E4.
      destruct (own_pad u Eu) as (t & Et & St).
      assert (T : teq t0 t).
      { destruct (Z.eqb_spec (zsum (map (fun p => fst p + snd p) (own_padding w))) 0) as [Zs|Zs].
        - injection E1 as <-. destruct (pad_nothing (own_padding w) u) as (t1 & Et1 & Tt1); auto.
          + rewrite own_length, Eu, <- EG. now symmetry.
          + exact own_nonneg.
          + rewrite Et in Et1. injection Et1 as <-. now apply teq_sym.
        - rewrite Et in E1. injection E1 as <-. apply teq_refl. }
      rewrite (inner_teq t0 t e e T (teq_refl _)) by (destruct T; congruence).
      set (Y := mkt (b :: cout :: ys) (fun i => match i with
                  | b' :: c' :: o => f cin c' (fun ch k => value_at u rzero (b' :: ch :: seen_point (length xs) w o k))
                  | _ => rzero end) : tensor R).
      assert (HS : is_sequential f (fun _ => cout) rzero w u Y).
      { exists b, cin, xs, ys. split; [auto|]. split; [reflexivity|]. do 4 (split; [auto|]). reflexivity. }
      destruct (single_output f u Y u t) as (y & Ey & Ty); auto; [|apply teq_refl|].
      { apply (linear_local w f (fun _ => cout) K HK). }
      assert (Sy : tshape dy = tshape y) by (destruct Hdy, Ty; cbn [Y tshape] in *; congruence).
      unfold e. rewrite <- St. rewrite <- (sliding_adjoint K f (fun _ => cout) w t y dy); auto.
      - rewrite (inner_teq y Y dy dY) by auto. rewrite (sequential_adjoint K f (fun _ => cout) w u Y dY HK HS) by exact ED.
        now rewrite Eu, EG.
      - rewrite St. unfold grown. rewrite map2_length; [cbn [length]; rewrite EG in Hlen; exact Hlen|]. rewrite own_length, <- EG. auto. }
    destruct (Q (mkt (b :: cin :: xs) (fun _ => rzero)) eq_refl) as (dx & E & S & _). exists dx. split; auto.
    split; [cbn [input_gradient tshape]; congruence|]. intros p Hp. rewrite S in Hp.
    destruct (Q (unit_at (b :: cin :: xs) p) eq_refl) as (dx' & E' & _ & I). rewrite E in E'. injection E' as <-.
    rewrite !unit_inner in I by auto. exact I.
  Qed.

  Lemma single_reading (t : tensor R) h c : reads_window w h -> 0 <= c < cout ->
    f_pad rzero (distdl_padding_to_torch_padding (own_padding w)) (length (tshape x)) x = Some t ->
    reading_sum h c cin dy (fun b' o ch k => tat t (b' :: ch :: window_point w o k)) =
    reading_sum h c cin dY (fun b' o ch k => value_at G rzero (b' :: ch :: seen_point (length (skipn 2 (tshape G))) w o k)).
  Proof.
    intros Hh Hc Et. assert (Ex : tshape x = b :: cin :: xs) by (destruct Hx; congruence).
    destruct (own_pad x Ex) as (t' & Et' & St). rewrite Et in Et'. injection Et' as <-.
    destruct (single_output (pick c h) G (picked w cout ys h c G) x t) as (y & Ey & Ty); auto.
    { now apply pick_local. }
    { now apply (picked_sequential w cout b cin xs ys h c G). }
    assert (En : nth 1 (tshape t) 0 = cin) by (rewrite St; unfold grown, own_padding; cbn [map2 nth fst snd]; lia).
    rewrite <- (picked_inner w cout b cin xs ys h c G dY EG ED Hc). rewrite <- En at 1.
    assert (Sy : tshape y = b :: cout :: ys) by (destruct Ty as [Ty _]; cbn [picked tshape] in Ty; rewrite EG in Ty; exact Ty).
    rewrite <- (sliding_reading w cout h c t y dy); auto.
    - apply inner_teq; auto. destruct Hdy. congruence.
    - destruct Hdy. congruence.
  Qed.

  Lemma single_weight (t : tensor R) :
    f_pad rzero (distdl_padding_to_torch_padding (own_padding w)) (length (tshape x)) x = Some t ->
    teq (conv_weight_backward w cout groups t dy) (weight_gradient w cout groups G dY).
  Proof.
    intros Et. assert (Ex : tshape x = b :: cin :: xs) by (destruct Hx; congruence).
    destruct (own_pad x Ex) as (t' & Et' & St). rewrite Et in Et'. injection Et' as <-.
    assert (En : nth 1 (tshape t) 0 = cin) by (rewrite St; unfold grown, own_padding; cbn [map2 nth fst snd]; lia).
    split; [cbn [conv_weight_backward weight_gradient tshape]; rewrite En, EG; reflexivity|].
    intros i Hi. cbn [conv_weight_backward tshape] in Hi. rewrite En in Hi.
    apply valid_index_cons_inv in Hi as (c & i' & -> & Hc & Hi). apply valid_index_cons_inv in Hi as (j & k & -> & Hj & Hk).
    rewrite weight_reading_sequential by (rewrite ?EG; auto). rewrite EG at 1. cbn [nth].
    rewrite <- (single_reading t (read_weight cout groups c j k) c) by (auto using read_weight_local).
    rewrite weight_reading by (rewrite ?En; auto). now rewrite En.
  Qed.

  Lemma single_bias : teq (conv_bias_backward cout dy) (bias_gradient cout dY).
  Proof.
    split; [reflexivity|]. intros i Hi. apply valid_index_cons_inv in Hi as (c & i' & -> & Hc & Hi). apply valid_index_nil in Hi. subst i'.
    assert (Ex : tshape x = b :: cin :: xs) by (destruct Hx; congruence). destruct (own_pad x Ex) as (t & Et & _).
    rewrite (bias_reading_sequential cout cin dY c (fun b' o ch k => value_at G rzero (b' :: ch :: seen_point (length (skipn 2 (tshape G))) w o k))).
    rewrite <- (single_reading t read_bias c); auto; [|now intros ? ? ? ?]. apply bias_reading.
  Qed.
End Single.

(** * C53 *)
Lemma C53_proof : C53_statement.
Proof.
  intros R world P L w cout groups use_bias dt rg weight bias G Y dY x dy HG H1 HW (b & cin & xs & ys & EG & EY & Hcnt & Hb & Hc0 & Hys & _)
    HB Hin ED HD shape arg plan back layer.
  rewrite EG in HW. cbn [nth] in HW. rewrite EY in ED, HD. unfold out_counts in Hin. rewrite EG, EY in Hin. cbn [nth skipn] in Hin.
  split.
  - intros E1 exchanged back'. pose proof HW as (A & B & C & _ & Ew & _). assert (HPo : part_ok P) by apply HG.
    pose proof (root_in world P L w HG) as Hroot. destruct (worker_at_exists P _ HPo Hroot) as [idx0 Hv0].
    assert (Hones : Forall (fun n => n = 1) (p_shape P)).
    { destruct HPo as (_ & _ & Hp & HL). rewrite E1 in HL. clear - Hp HL. induction Hp as [|n l Hn Hp IH]; [constructor|].
      cbn [zprod fold_right] in HL. fold (zprod l) in HL. pose proof (zprod_pos _ Hp).
      assert (n = 1) by nia. subst n. constructor; auto. apply IH. lia. }
    assert (HLW : layout_workers L = p_shape P) by apply HG.
    destruct (sv_out world P L w cout groups use_bias weight bias G x HG b cin xs ys EG HW Hcnt Hb Hys HB) as [O1 O2].
    assert (One : forall idx, worker_at P idx (hd 0 (p_ranks P)) -> teq (x (hd 0 (p_ranks P))) G /\ teq (dy (hd 0 (p_ranks P))) dY).
    { intros idx Hv. destruct HB as [EL HB'], HD as [EO HD']. split.
      - eapply teq_trans; [apply HB'; exact Hv|]. apply single_block; rewrite ?HLW; auto. apply Hv.
      - eapply teq_trans; [apply HD'; exact Hv|]. apply single_block; rewrite ?O2; auto. apply Hv. }
    destruct (One idx0 Hv0) as [Hx Hdy]. set (root := hd 0 (p_ranks P)) in *.
    assert (Hlen : length (tshape G) = S (S (length (w_kernel w)))).
    { destruct HB as [-> _]. rewrite layout_shape_length, <- layout_workers_length, HLW. destruct HG as (_ & _ & _ & _ & _ & -> & _). reflexivity. }
    assert (Hw : window_ok (length (w_kernel w)) w) by apply HG.
    assert (Eq1 : Nat.eqb (length (p_ranks P)) 1 = true) by (now apply Nat.eqb_eq).
    unfold conv_gradients_ok. cbv zeta. fold root. split; [|split; [|split]].
    + intros idx v Hv. pose proof (worker_at_In _ _ _ Hv) as Hr.
      assert (Ev : v = root).
      { unfold root. destruct (p_ranks P) as [|a [|]]; try discriminate. destruct Hr as [<-|[]]. reflexivity. }
      subst v. unfold conv_gradient. rewrite (proj2 (is_active_spec _ _) Hr), Eq1. cbn [negb].
      destruct (single_input w cout groups G dY b cin xs ys Hw EG Hlen Hcnt Hb Hc0 Hys A B C ED (x root) (dy root) Hx Hdy (weight root) Ew) as (t & Et & Tt).
      exists t. split; [exact Et|]. eapply teq_trans; [exact Tt|]. apply teq_sym. apply single_block; rewrite ?HLW; auto; [apply Hv|].
      cbn [input_gradient tshape]. apply HB.
    + unfold conv_weight_gradient, conv_local_weight_grad, conv_seen. rewrite Eq1.
      destruct (own_pad w G b cin xs Hw EG Hlen (x root)) as (t & Et & _); [destruct Hx; congruence|].
      rewrite Et. cbn [rbind]. eexists. split; [reflexivity|].
      exact (single_weight w cout groups G dY b cin xs ys Hw EG Hlen Hcnt Hb Hc0 Hys A B C ED (x root) (dy root) Hx Hdy t Et).
    + intros _. unfold conv_bias_gradient, conv_local_bias_grad. rewrite Eq1. eexists. split; [reflexivity|].
      exact (single_bias w cout G dY b cin xs ys Hw EG Hlen Hcnt Hb Hc0 Hys ED (x root) (dy root) Hx Hdy).
    + intros v Hv. unfold conv_gradient. apply is_active_false in Hv. now rewrite Hv.
  - intros Hmany. specialize (Hin Hmany). split; [|split].
    + intros v Hv. exact (sv_start world P L w cout groups use_bias dt rg weight bias G x dy HG b cin ys HW HB Hmany v Hv).
    + exact (halo_started world P L w rzero G x HG HB).
    + intros pre pre' init init' eager eager' gf gb Hp Hp' Hf Hb'.
      exact (sv_ok world P L w cout groups use_bias dt rg weight bias G dY x dy HG H1 b cin xs ys EG HW Hcnt Hb Hc0 Hys HB Hmany Hin ED HD
               pre pre' init init' eager eager' gf gb Hp Hp' Hf Hb').
Qed.

Theorem C53_conv_gradients : C53_statement.
Proof. exact C53_proof. Qed.

(** The convolution of C30's example with its bias, and the cotangents of C51's: the
    gradients on worker 10 are sums over all three workers. *)
Definition gx_dt (_ : Z) : Z := 0.
Definition gx_rg (_ : Z) : bool := true.
Definition gx_back : Z -> tensor Zring := conv_back_argument cv_P cv_w 2 1 gx_dt gx_rg cv_shape cv_weight (fun v => tshape (cv_arg v)) fx_dy.

Example C53_example :
  feature_given cv_world cv_P cv_L cv_w /\ nth 1 (p_shape cv_P) 0 = 1 /\
  conv_parameters cv_P cv_w (nth 1 (tshape cv_G) 0) 2 1 true cv_weight cv_bias /\
  is_sequential (root_conv cv_P cv_w 2 1 true cv_weight cv_bias) (fun _ => 2) (0 : car Zring) cv_w cv_G cv_Y /\
  holds_blocks cv_P cv_L cv_G cv_x /\ within cv_L cv_w (out_counts cv_G cv_Y) /\
  tshape fx_dY = tshape cv_Y /\ holds_blocks cv_P (balanced (tshape cv_Y) (p_shape cv_P)) fx_dY fx_dy /\
  (forall v, In v cv_world -> ~ In v (p_ranks cv_P) -> tshape (fx_dy v) = tshape (cv_x v)) /\
  let dW := conv_weight_gradient cv_P cv_w 2 1 gx_dt gx_rg cv_shape cv_weight cv_x (fx_run (HForward cv_arg)) fx_dy 10 in
  let db := conv_bias_gradient cv_P 2 gx_dt gx_rg cv_bias fx_dy 10 in
  let dx := conv_gradient cv_P cv_w 2 1 cv_shape cv_weight fx_dy (fx_run (HBackward gx_back)) in
  map (tat (val dW)) (indices [2; 2; 3]) = [684; 885; 600; 1584; 1385; 600; 1296; 1740; 1455; 4896; 5240; 4155] /\
  map (tat (weight_gradient cv_w 2 1 cv_G fx_dY)) (indices [2; 2; 3]) = map (tat (val dW)) (indices [2; 2; 3]) /\
  map (tat (val db)) (indices [2]) = [5; 35] /\
  map (tat (val (dx 11))) (indices [1; 2; 3]) = [32; 50; 68; 23; 35; 47].
Proof.
  pose proof C30_convolutions_example as (A & B & C & D & E & _ & F & _).
  pose proof C51_example as (_ & _ & _ & _ & O & _). pose proof C52_example as (_ & _ & _ & _ & _ & I & J & _).
  do 9 (split; [assumption|]). cbv zeta. repeat split; vm_compute; reflexivity.
Qed.

Print Assumptions C53_conv_gradients.
