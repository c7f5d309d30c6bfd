(** C30 for the layers DistributedFeatureConv and DistributedPool. *)

From Verif Require Import Prelude SpecIndex SpecLayout SpecPartition SpecHalo ModelSlicing ModelDecomposition
  ModelPartition ProofSlicing ProofDecomposition ProofPartition Ring Tensor ModelCollectives PropCollectives PropExchange
  ModelUtilities PropUtilities Blocks P2P Rounds ModelRepartition ProofTransfer PropRepartition ModelHaloMixin ProofHaloMixin
  PropHaloMixin ModelHaloExchange PropHaloExchange ModelFeatureLayer SpecFeature ProofFeatureLayer PropFeatureLayer.

(** The weight and the bias on the first worker of [P]; what the other workers
    hold does not matter. *)
Definition conv_parameters {R : CRing} (P : part) (w : window) (cin cout groups : Z) (use_bias : bool)
    (weight bias : Z -> tensor R) : Prop :=
  0 < cout /\ 0 < groups /\ (groups | cout) /\ (groups | cin) /\
  tshape (weight (hd 0 (p_ranks P))) = cout :: cin / groups :: w_kernel w /\
  (use_bias = true -> tshape (bias (hd 0 (p_ranks P))) = [cout]) /\
  forall v, In v (p_ranks P) -> nonneg_shape (tshape (weight v)) /\ nonneg_shape (tshape (bias v)).

(** The sequential convolution with the weight and bias of the first worker. *)
Definition root_conv {R : CRing} (P : part) (w : window) (cout groups : Z) (use_bias : bool)
    (weight bias : Z -> tensor R) : kernel :=
  conv_kernel w cout groups (weight (hd 0 (p_ranks P))) (if use_bias then Some (bias (hd 0 (p_ranks P))) else None).

(** All workers of [P] output their blocks; the others return their inputs. *)
Definition C30_conv_statement (extra : layout -> window -> list Z -> Prop) : Prop :=
  forall (R : CRing) (world : list Z) (P : part) (L : layout) (w : window) (cout groups : Z) (use_bias : bool)
    (dt : Z -> Z) (rg rgb : Z -> bool) (weight bias : Z -> tensor R) (G Y : tensor R) (x : Z -> tensor R),
    feature_given world P L w -> nth 1 (p_shape P) 0 = 1 ->
    conv_parameters P w (nth 1 (tshape G) 0) cout groups use_bias weight bias ->
    is_sequential (root_conv P w cout groups use_bias weight bias) (fun _ => cout) rzero w G Y ->
    holds_blocks P L G x -> ((1 < length (p_ranks P))%nat -> extra L w (out_counts G Y)) ->
    let shape v := tshape (x v) in
    let arg := halo_argument P w rzero shape x in
    let plan := halo_plan P w shape in
    let layer := history_rounds P (fun v => tshape (arg v)) (fun v => u_recv (plan v)) (fun v => u_send (plan v)) in
    halo_ready world P w rzero x /\
    forall pre init eager g, same_calls P arg pre -> ends world (layer (pre ++ [HForward arg])) init eager g ->
      (forall idx v, worker_at P idx v ->
         exists t, conv_forward P w cout groups use_bias dt rg weight bias shape x (halo_result g) v = Ok t /\
                   teq t (block (balanced (tshape Y) (p_shape P)) idx Y)) /\
      (forall v, In v world -> ~ In v (p_ranks P) ->
         conv_forward P w cout groups use_bias dt rg weight bias shape x (halo_result g) v = Ok (x v)).

Section Kernel.
  Context {R : CRing}.
  Variables (w : window) (cin cout groups : Z).
  Hypothesis Hcout : 0 < cout.
  Hypothesis Hg : 0 < groups.
  Hypothesis Hd : (groups | cout).

  Lemma group_channel c c' j : 0 <= c' < cout -> 0 <= j < c / groups ->
    0 <= c' / (cout / groups) * (c / groups) + j < c.
  Proof.
    intros Hc' Hj. destruct Hd as [q Eq].
    assert (Eq' : cout / groups = q) by (rewrite Eq; apply Z.div_mul; lia). rewrite Eq'.
    assert (0 < q) by nia.
    assert (A : 0 <= c' / q) by (apply Z.div_pos; lia).
    assert (B : c' / q < groups) by (apply Z.div_lt_upper_bound; nia).
    pose proof (Z.mul_div_le c groups Hg). split; [nia|].
    assert (c' / q * (c / groups) <= (groups - 1) * (c / groups)) by (apply Z.mul_le_mono_nonneg_r; lia). nia.
  Qed.

  Lemma conv_local (weight : tensor R) bias : kernel_local w (conv_kernel w cout groups weight bias) (fun _ => cout).
  Proof.
    intros c c' g g' E Hc. unfold conv_kernel. f_equal. apply sumf_ext. intros j Hj. apply in_zrange in Hj.
    apply sumf_ext. intros t Ht. apply in_indices in Ht. f_equal. apply E; auto. now apply group_channel.
  Qed.

  Lemma conv_teq (weight weight' : tensor R) (bias bias' : option (tensor R)) c' g :
    teq weight' weight -> tshape weight = cout :: cin / groups :: w_kernel w ->
    match bias, bias' with
    | Some b, Some b' => teq b' b /\ tshape b = [cout]
    | None, None => True
    | _, _ => False
    end -> 0 <= c' < cout ->
    conv_kernel w cout groups weight' bias' cin c' g = conv_kernel w cout groups weight bias cin c' g.
  Proof.
    intros [E V] Es Eb Hc. unfold conv_kernel. f_equal.
    - apply sumf_ext. intros j Hj. apply in_zrange in Hj. apply sumf_ext. intros t Ht. apply in_indices in Ht.
      rewrite V; auto. rewrite E, Es. apply valid_index_cons. split; auto. apply valid_index_cons. split; auto.
    - destruct bias as [b|], bias' as [b'|]; try contradiction; auto. destruct Eb as [[E' V'] Es']. apply V'.
      rewrite E', Es'. constructor; [lia|constructor].
  Qed.
End Kernel.

Section Conv.
  Context {R : CRing}.
  Variables (world : list Z) (P : part) (L : layout) (w : window).
  Hypothesis HG : feature_given world P L w.
  Let root := hd 0 (p_ranks P).

  Lemma root_in : In root (p_ranks P).
  Proof.
    destruct HG as (_ & _ & (_ & _ & Hp & HL) & _). pose proof (zprod_pos _ Hp). unfold root.
    destruct (p_ranks P); [simpl in HL; lia|now left].
  Qed.

  Lemma weight_part_ok : part_ok (weight_part P).
  Proof. repeat split; try discriminate; repeat constructor; simpl; auto; lia. Qed.

  Lemma weight_accepted : bc_accepted (weight_part P) P false false false.
  Proof.
    assert (HP : part_ok P) by apply HG.
    split; [apply weight_part_ok|]. split; [auto|]. split; [reflexivity|]. split; [|discriminate].
    cbn [flip weight_part p_shape]. destruct HP as (_ & Hn & _). split.
    - destruct (p_shape P); [congruence|simpl; lia].
    - unfold trailing. cbn [length]. assert (Hl : length (skipn (length (p_shape P) - 1) (p_shape P)) = 1%nat).
      { rewrite skipn_length. destruct (p_shape P); [congruence|cbn [length]; lia]. }
      destruct (skipn _ _) as [|a [|]]; try discriminate. constructor; [now right|constructor].
  Qed.

  Lemma weight_paired v : In v (p_ranks P) -> paired (weight_part P) P false false root v.
  Proof.
    intros Hv. destruct (worker_at_exists P v) as [idx Hi]; [apply HG|auto|]. exists [0], idx.
    split; [split; [repeat constructor; lia|reflexivity]|]. split; [auto|].
    cbn [flip weight_part p_shape]. unfold project, trailing. cbn [length].
    assert (Hl : length (skipn (length idx - 1) idx) = 1%nat).
    { rewrite skipn_length. destruct Hi as [Hi _]. apply valid_index_length in Hi.
      destruct HG as (_ & _ & (_ & Hn & _) & _). destruct (p_shape P); [congruence|]. simpl in Hi. lia. }
    destruct (skipn _ _) as [|a [|]]; try discriminate. reflexivity.
  Qed.

  Lemma parameter_ok dt rg (param : Z -> tensor R) v :
    (forall u, In u (p_ranks P) -> nonneg_shape (tshape (param u))) -> In v (p_ranks P) ->
    exists t, conv_parameter P dt rg param v = Ok t /\ teq t (param root).
  Proof.
    intros Hs Hv. unfold conv_parameter.
    destruct (C14_proof R (weight_part P) P false false false false dt rg param) as [A _].
    - apply weight_accepted.
    - now left.
    - intros u Hu. split; [|discriminate]. apply Hs. destruct Hu as [[<-|[]]|Hu]; auto. apply root_in.
    - apply A; auto. now apply weight_paired.
  Qed.
End Conv.

(** The torch layer with its own padding. *)
Lemma padded_serial {R : CRing} (f : @kernel R) cout value w (G Y x : tensor R) :
  window_ok (length (w_kernel w)) w -> kernel_local w f cout -> is_sequential f cout value w G Y ->
  length (tshape G) = S (S (length (w_kernel w))) -> teq x G ->
  exists t, torch_padded w f cout value x = Ok t /\ teq t Y.
Proof.
  intros Hw HK (b & c & xs & ys & EG & EY & [Hl Hcnt] & Hb & Hc & Hys & HY) Hlen [Ex Vx].
  rewrite EG in Ex, Hlen. cbn [length] in Hlen.
  pose proof Hw as (W1 & W2 & W3 & W4 & _).
  set (pad := (0, 0) :: (0, 0) :: map (fun p : Z => (p, p)) (w_padding w)).
  destruct (C42_proof R value pad x) as (t & E1 & E2 & E3).
  { rewrite Ex. unfold pad. cbn [length]. rewrite map_length. lia. }
  unfold torch_padded. fold pad. rewrite E1.
  rewrite Ex in E2. unfold pad in E2. cbn [map2] in E2. cbn [fst snd] in E2. rewrite !Z.add_0_r in E2.
  set (xp := map2 (fun n p => n + fst p + snd p) xs (map (fun p : Z => (p, p)) (w_padding w))) in E2.
  assert (Lxp : length xp = length xs).
  { unfold xp. rewrite map2_length; auto. rewrite map_length. lia. }
  assert (Nxp : forall j, (j < length xs)%nat -> nth j xp 0 = nth j xs 0 + 2 * nth j (w_padding w) 0).
  { intros j Hj. unfold xp. rewrite map2_nth with (da := 0) (db := (0, 0)); rewrite ?map_length; try lia.
    change (0, 0) with ((fun p : Z => (p, p)) 0). rewrite map_nth. cbn [fst snd]. lia. }
  unfold torch_sliding. rewrite E2.
  assert (Ey : compute_out_shape xp (mkwindow (w_kernel w) (w_stride w) (repeat 0 (length xp)) (w_dilation w)) = ys).
  { unfold compute_out_shape. apply list_eq_nth with (d := 0); [rewrite vec_length; lia|].
    intros j Hj. rewrite vec_length in Hj. rewrite vec_nth by auto. cbn [w_kernel w_stride w_padding w_dilation].
    rewrite Nxp by lia. replace (nth j (repeat 0 (length xp)) 0) with 0.
    2:{ destruct (nth_in_or_default j (repeat 0 (length xp)) 0) as [Hr|Hr]; auto. now apply repeat_spec in Hr. }
    destruct (window_nth _ _ j Hw) as (B1 & B2 & B3 & B4); [lia|].
    assert (Hn : 0 < nth j ys 0) by (rewrite Forall_forall in Hys; apply Hys, nth_In; lia).
    unfold out_extent. pose proof (Hcnt j ltac:(lia)) as [_ C]. unfold window_fits in C.
    pose proof (proj1 (C (nth j ys 0 - 1) ltac:(lia)) ltac:(lia)) as C1.
    assert (C2 : nth j xs 0 + 2 * nth j (w_padding w) 0 <= nth j (w_stride w) 0 * nth j ys 0 + nth j (w_dilation w) 0 * (nth j (w_kernel w) 0 - 1)).
    { destruct (Z.le_gt_cases (nth j xs 0 + 2 * nth j (w_padding w) 0)
        (nth j (w_stride w) 0 * nth j ys 0 + nth j (w_dilation w) 0 * (nth j (w_kernel w) 0 - 1))) as [A|A]; auto.
      apply C in A; lia. }
    enough (Q : (nth j xs 0 + 2 * nth j (w_padding w) 0 + 2 * 0 - nth j (w_dilation w) 0 * (nth j (w_kernel w) 0 - 1) - 1)
              / nth j (w_stride w) 0 = nth j ys 0 - 1) by lia.
    symmetry. apply Z.div_unique with (r := nth j xs 0 + 2 * nth j (w_padding w) 0 - nth j (w_dilation w) 0 * (nth j (w_kernel w) 0 - 1) - 1
      - nth j (w_stride w) 0 * (nth j ys 0 - 1)); nia. }
  rewrite Ey.
  assert (T : forallb (fun n => 0 <? n) ys = true).
  { apply forallb_forall. intros z Hz. rewrite Forall_forall in Hys. apply Z.ltb_lt. auto. }
  rewrite T. eexists. split; [reflexivity|]. split; [cbn [tshape]; auto|]. cbn [tshape tat]. intros i Hi.
  pose proof Hi as Hi'. apply valid_index_cons_inv in Hi' as (b' & i1 & -> & Hb' & Hi').
  apply valid_index_cons_inv in Hi' as (c' & o & -> & Hc' & Ho).
  rewrite HY by (rewrite EY; exact Hi). apply HK; auto. intros ch t' Hch Ht.
  pose proof (valid_index_length _ _ Ho) as Lo. pose proof (valid_index_length _ _ Ht) as Lt.
  assert (Lwp : length (window_point w o t') = length xs).
  { unfold window_point, vadd. rewrite !map2_length; rewrite ?map2_length; lia. }
  rewrite E3 by (unfold pad; cbn [length]; rewrite map_length; lia).
  cbn [padded tat].
  set (q := map2 (fun (k : Z) (p : Z * Z) => k - fst p) (window_point w o t') (map (fun p : Z => (p, p)) (w_padding w))).
  assert (Eq : q = vec (length xs) (fun j => nth j (w_stride w) 0 * nth j o 0 - nth j (w_padding w) 0 + nth j (w_dilation w) 0 * nth j t' 0)).
  { apply list_eq_nth with (d := 0); unfold q; rewrite map2_length; rewrite ?vec_length, ?map_length; try lia.
    intros j Hj. rewrite map2_nth with (da := 0) (db := (0, 0)); rewrite ?map_length; try lia.
    change (0, 0) with ((fun p : Z => (p, p)) 0). rewrite map_nth. cbn [fst]. rewrite vec_nth by lia.
    unfold window_point, vadd. rewrite map2_nth with (da := 0) (db := 0); rewrite ?map2_length; try lia.
    rewrite !map2_nth with (da := 0) (db := 0); try lia. }
  assert (Ep : map2 (fun (k : Z) (p : Z * Z) => k - fst p) (b' :: ch :: window_point w o t') pad = b' :: ch :: q).
  { unfold pad. cbn [map2]. cbn [fst]. now rewrite !Z.sub_0_r. }
  rewrite Ep. rewrite padded_test by (rewrite Ex; cbn [length]; rewrite Eq, vec_length; lia).
  rewrite <- Eq. unfold value_at. rewrite Ex, EG. destruct (inside _ _) eqn:Ei; auto. apply Vx.
  rewrite Ex. now apply inside_spec in Ei.
Qed.

(** The only block of a partition with a single worker. *)
Lemma single_block {R : CRing} (L : layout) idx (G : tensor R) :
  Forall (fun n => n = 1) (layout_workers L) -> valid_index (layout_workers L) idx -> tshape G = layout_shape L ->
  teq (block L idx G) G.
Proof.
  intros H1 Hi EG. pose proof (valid_index_length _ _ Hi) as Li. rewrite layout_workers_length in Li.
  assert (D : forall j, (j < length L)%nat -> nth j idx 0 = 0 /\ exists e, nth j L [] = [e]).
  { intros j Hj. pose proof (workers_nth L j Hj) as E. rewrite Forall_forall in H1.
    assert (In (nth j (layout_workers L) 0) (layout_workers L)) as Q by (apply nth_In; now rewrite layout_workers_length).
    apply H1 in Q. rewrite Q in E. apply valid_index_nth in Hi as [_ B]. specialize (B j). rewrite layout_workers_length, Q in B.
    specialize (B Hj). split; [lia|]. destruct (nth j L []) as [|e [|]]; cbn in E; try lia. eauto. }
  assert (Es : block_shape L idx = layout_shape L).
  { apply list_eq_nth with (d := 0); rewrite block_shape_length by auto; [now rewrite layout_shape_length|].
    intros j Hj. rewrite block_shape_nth, xshape_nth by auto. destruct (D j Hj) as [-> [e ->]]. cbn. lia. }
  split; [cbn; congruence|]. cbn [block tshape tat]. intros p Hp. f_equal. apply list_eq_nth with (d := 0).
  - unfold vadd. rewrite map2_length; rewrite block_lo_length by auto; [|apply valid_index_length in Hp; rewrite block_shape_length in Hp; auto].
    apply valid_index_length in Hp. rewrite block_shape_length in Hp; auto.
  - intros j Hj. pose proof (valid_index_length _ _ Hp) as Lp. rewrite block_shape_length in Lp by auto.
    unfold vadd in *. rewrite map2_length in Hj by (rewrite block_lo_length; auto). rewrite block_lo_length in Hj by auto.
    rewrite map2_nth with (da := 0) (db := 0) by (rewrite block_lo_length; auto). rewrite block_lo_nth by auto.
    destruct (D j Hj) as [-> _]. unfold dim_lo. cbn. lia.
Qed.

Lemma C30_conv_proof : C30_conv_statement within.
Proof.
  intros R world P L w cout groups use_bias dt rg rgb weight bias G Y x HG HC
    (Hcout & Hgr & Hdv & Hdi & Ew & Eb & Hs) HS HB Hin shape arg plan layer.
  split; [exact (halo_started world P L w rzero G x HG HB)|]. intros pre init eager g Hpre Hend.
  assert (HP : part_ok P) by apply HG.
  split.
  - intros idx v Hv. pose proof (worker_at_In _ _ _ Hv) as Hr. unfold conv_forward.
    rewrite (proj2 (is_active_spec _ _) Hr). cbn [negb].
    destruct (Nat.eqb_spec (length (p_ranks P)) 1) as [E1|E1].
    + assert (Ev : v = hd 0 (p_ranks P)).
      { destruct (p_ranks P) as [|a [|]]; try discriminate. destruct Hr as [<-|[]]. reflexivity. }
      assert (Ek : conv_kernel w cout groups (weight v) (if use_bias then Some (bias v) else None) =
                   root_conv P w cout groups use_bias weight bias) by (unfold root_conv; now rewrite <- Ev).
      rewrite Ek. clear Ek.
      destruct HB as [EGs HB]. specialize (HB idx v Hv).
      assert (Hones : p_shape P = repeat 1 (length L)).
      { destruct HG as (_ & _ & (_ & _ & Hp & HL) & _ & HW & _). rewrite E1 in HL.
        rewrite <- (layout_workers_length L), HW. clear - Hp HL. induction Hp as [|n l Hn Hp IH]; [reflexivity|].
        cbn [zprod fold_right] in HL. fold (zprod l) in HL. pose proof (zprod_pos _ Hp).
        assert (n = 1) by nia. subst n. cbn [length repeat]. f_equal. apply IH. lia. }
      assert (EY : tshape G <> [] /\ nonneg_shape (tshape Y) /\ length (tshape Y) = length (p_shape P)).
      { destruct HS as (b & c & xs & ys & EG & EY & [Hl _] & Hb & Hc & Hys & _). rewrite EG, EY. split; [discriminate|]. split.
        - constructor; [lia|]. constructor; [lia|]. eapply Forall_impl; [|exact Hys]. cbn. lia.
        - rewrite EG in EGs. apply (f_equal (@length Z)) in EGs. rewrite layout_shape_length in EGs. cbn [length] in *.
          rewrite Hones, repeat_length. lia. }
      destruct EY as (_ & Ny & Ly). destruct HP as (HP1 & HP2 & HP3 & HP4).
      assert (Hv1 : valid_index (layout_workers L) idx) by (destruct HG as (_ & _ & _ & _ & -> & _); apply Hv).
      destruct (padded_serial (root_conv P w cout groups use_bias weight bias) (fun _ => cout) rzero w G Y (x v)) as (t & Et & Tt); auto.
      * apply HG.
      * apply conv_local; auto.
      * rewrite EGs, layout_shape_length, <- layout_workers_length. destruct HG as (_ & _ & _ & _ & -> & -> & _). reflexivity.
      * eapply teq_trans; [exact HB|]. apply single_block; auto.
        destruct HG as (_ & _ & _ & _ & -> & _). rewrite Hones. apply Forall_forall. intros z Hz. now apply repeat_spec in Hz.
      * exists t. split; [exact Et|]. eapply teq_trans; [exact Tt|]. apply teq_sym. apply single_block.
        -- rewrite balanced_workers by auto. rewrite Hones. apply Forall_forall. intros z Hz. now apply repeat_spec in Hz.
        -- rewrite balanced_workers by auto. apply Hv.
        -- now rewrite balanced_shape by auto.
    + destruct (parameter_ok world P L w HG dt rg weight v) as (wt & Ewt & Twt); auto; [intros u Hu; now apply Hs|].
      rewrite Ewt. cbn [rbind].
      assert (Bb : exists bt, (if use_bias then conv_parameter P dt rg bias v else Ok (bias v)) = Ok bt /\
                     (use_bias = true -> teq bt (bias (hd 0 (p_ranks P))))).
      { destruct use_bias.
        - destruct (parameter_ok world P L w HG dt rg bias v) as (bt & Ebt & Tbt); auto; [intros u Hu; now apply Hs|].
          exists bt. auto.
        - exists (bias v). split; [auto|discriminate]. }
      destruct Bb as (bt & Ebt & Tbt). rewrite Ebt. cbn [rbind].
      set (f := conv_kernel w cout groups wt _).
      destruct (C30_proof R world P L w f (fun _ => cout) rzero G Y x HG) as (_ & _ & K); auto.
      * apply conv_local; auto.
      * destruct HS as (b & c & xs & ys & EG & EY & Hc1 & Hc2 & Hc3 & Hc4 & HY).
        exists b, c, xs, ys. do 6 (split; [auto|]). intros b' c' o Ho. rewrite HY by auto.
        rewrite EG in Ew. cbn [nth] in Ew. symmetry. unfold f, root_conv. apply conv_teq; auto.
        -- destruct use_bias; auto.
        -- rewrite EY in Ho. apply valid_index_cons in Ho as [_ Ho]. now apply valid_index_cons in Ho as [Ho _].
      * apply Hin. destruct (p_ranks P) as [|a [|]]; [destruct Hr|cbn in E1; lia|cbn; lia].
      * destruct (K pre init eager g Hpre Hend) as [K1 _]. now apply K1.
  - intros v Hw Hv. unfold conv_forward. apply is_active_false in Hv. now rewrite Hv.
Qed.
