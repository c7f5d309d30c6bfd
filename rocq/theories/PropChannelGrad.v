(** All gradients of the channel-distributed convolution: C54. *)

From Verif Require Import Prelude SpecIndex SpecLayout SpecPartition SpecHalo ModelSlicing ModelDecomposition ModelPartition ProofSlicing
  ProofDecomposition ProofPartition Ring Tensor ModelCollectives ProofCollectives PropCollectives Blocks ModelUtilities PropUtilities P2P Rounds
  ModelRepartition ProofRepartition PropRepartition ModelHaloMixin ProofHaloMixin PropHaloMixin ModelHaloExchange PropHaloExchange
  ModelFeatureLayer SpecFeature ProofFeatureLayer PropFeatureLayer PropFeatureConv ModelLinear ProofWork PropLinear ModelConv ProofConv
  ProofConvParts PropConv PropConvChannel ModelGradients ModelFeatureGrad SpecFeatureGrad ProofFeatureGrad PropFeatureGrad PropConvGrad
  ModelWorkGrad ProofWorkGrad ModelChannelGrad.
Local Open Scope Z_scope.

(** What a backward pass is to deliver: on the workers of P_x the blocks of the
    sequential input gradient; on the workers with feature index 0, which have the
    parameters, the blocks of the sequential weight gradient and, with input-channel
    index 0, of the bias gradient; nothing for a bias that is not there; tensors
    without elements or the worker's own argument elsewhere. *)
Definition conv_gradients_delivered {R : CRing} (Px Py Pw : part) (co ci : Z) (Lx : layout) (w : window) (groups cout : Z)
    (W : tensor R) (bias : option (tensor R)) (X dY : tensor R) (dy : Z -> tensor R)
    (dx dweight : Z -> result (tensor R)) (dbias : Z -> option (result (tensor R))) : Prop :=
  let nk := length (w_kernel w) in
  (forall idx v, worker_at Px idx v ->
     exists t, dx v = Ok t /\ teq t (block Lx idx (input_gradient (conv_coefficients cout groups W) w (tshape X) dY))) /\
  (forall j i v, worker_at Pw (j :: i :: repeat 0 nk) v ->
     exists t, dweight v = Ok t /\
       teq t (block (balanced (tshape W) (co :: ci :: repeat 1 nk)) (j :: i :: repeat 0 nk) (weight_gradient w cout groups X dY))) /\
  (forall j v, worker_at Pw (j :: 0 :: repeat 0 nk) v -> bias <> None ->
     exists t, dbias v = Some (Ok t) /\ teq t (block (balanced [cout] [co]) [j] (bias_gradient cout dY))) /\
  (forall v, bias = None \/ (forall j, ~ worker_at Pw (j :: 0 :: repeat 0 nk) v) -> dbias v = None) /\
  (forall v, In v (p_ranks Pw) \/ In v (p_ranks Py) -> ~ In v (p_ranks Px) -> exists t n, dx v = Ok t /\ tshape t = [n; 0] /\ 0 <= n) /\
  (forall v, ~ In v (p_ranks Px) -> ~ In v (p_ranks Pw) -> ~ In v (p_ranks Py) -> dx v = Ok (dy v)).

Definition C54_statement : Prop :=
  forall (R : CRing) (Px Py Pw : part) (co ci : Z) (w : window) (groups cin cout : Z)
    (W : tensor R) (bias : option (tensor R)) (X Y dY : tensor R) (weight bias_of x dy : Z -> tensor R) dt dt' rg rg',
  conv_layer Px Py Pw co ci (repeat 1 (length (w_kernel w))) w groups cin cout W bias X Y ->
  plain groups Px Py Pw ->
  conv_parameters_held Pw co ci w cout W bias weight bias_of ->
  holds_blocks Px (balanced (tshape X) (p_shape Px)) X x -> others_pass Px Py Pw x ->
  tshape dY = tshape Y -> holds_blocks Py (balanced (tshape Y) (p_shape Py)) dY dy -> others_pass Py Px Pw dy ->
  conv_gradients_delivered Px Py Pw co ci (balanced (tshape X) (p_shape Px)) w groups cout W bias X dY dy
    (channel_conv_backward Px Py Pw w groups (has_bias bias) dt dt' rg rg' weight bias_of x dy)
    (channel_weight_gradient Px Py Pw w groups (has_bias bias) dt dt' rg rg' weight bias_of x dy)
    (channel_bias_gradient Px Py Pw w groups (has_bias bias) dt dt' rg rg' weight bias_of x dy).

(** * One worker's part *)

(** The value of a block of channels. *)
Lemma channel_value {R : CRing} (ci i b cin : Z) (xs : list Z) (X : tensor R) b' ch p :
  0 < ci -> 0 <= cin -> 0 <= i < ci -> tshape X = b :: cin :: xs -> length p = length xs -> 0 <= ch < subshape1 ci i cin ->
  value_at (block (balanced (tshape X) (1 :: ci :: repeat 1 (length xs))) (0 :: i :: repeat 0 (length xs)) X) rzero (b' :: ch :: p) =
  value_at X rzero (b' :: start1 ci i cin + ch :: p).
Proof.
  intros Hci Hcin Hi EX Lp Hch. unfold value_at.
  assert (Sb : tshape (block (balanced (tshape X) (1 :: ci :: repeat 1 (length xs))) (0 :: i :: repeat 0 (length xs)) X) = b :: subshape1 ci i cin :: xs).
  { cbn [block tshape]. rewrite EX, !bal_shape_cons by lia. now rewrite unit_sub, ones_shape. }
  rewrite Sb, EX.
  assert (Ei : inside (b :: subshape1 ci i cin :: xs) (b' :: ch :: p) = inside (b :: cin :: xs) (b' :: start1 ci i cin + ch :: p)).
  { apply Bool.eq_iff_eq_true. rewrite !inside_spec, !valid_index_cons. pose proof (start1_sub_le ci i cin Hci Hcin Hi). intuition lia. }
  rewrite Ei. clear Ei. destruct (inside (b :: cin :: xs) (b' :: start1 ci i cin + ch :: p)); [|reflexivity]. cbn [block tat]. rewrite !bal_lo_cons by lia. rewrite ones_lo.
  rewrite start1_0 by lia. pose proof (zeros_vadd (length xs) p Lp) as Ez. unfold vadd in *. cbn [map2]. now rewrite Z.add_0_l, Ez.
Qed.

(** The input channel that a weight applies to. *)
Lemma channel_index co ci groups cout cin j i c m :
  0 < co <= cout -> 0 < ci <= cin -> 0 < groups -> (groups | cout) -> (groups | cin) -> groups = 1 \/ co = 1 /\ ci = 1 ->
  0 <= j < co -> 0 <= i < ci -> 0 <= c < subshape1 co j cout -> 0 <= m < subshape1 ci i (cin / groups) ->
  start1 ci i cin + (c / (subshape1 co j cout / groups) * subshape1 ci i (cin / groups) + m) =
  (start1 co j cout + c) / (cout / groups) * (cin / groups) + (start1 ci i (cin / groups) + m) /\
  0 <= c / (subshape1 co j cout / groups) * subshape1 ci i (cin / groups) + m < subshape1 ci i cin.
Proof.
  intros F1 F2 F3 F4 F5 [->|[-> ->]] Hj Hi Hc Hm.
  - rewrite !Z.div_1_r in *. pose proof (start1_sub_le co j cout ltac:(lia) ltac:(lia) Hj).
    rewrite (Z.div_small c) by lia. rewrite (Z.div_small (_ + c)) by lia. lia.
  - assert (j = 0) by lia. assert (i = 0) by lia. subst j i. rewrite unit_sub in Hc, Hm. rewrite !unit_sub, !start1_0 by lia. rewrite !Z.add_0_l.
    split; [lia|]. destruct F4 as [p Ep], F5 as [r Er]. subst cout cin. rewrite Z.div_mul in Hm by lia. rewrite !Z.div_mul by lia.
    assert (0 < p) by nia. assert (0 < r) by nia.
    pose proof (Z.div_pos c p ltac:(lia) ltac:(lia)). assert (c / p < groups) by (apply Z.div_lt_upper_bound; nia). nia.
Qed.

Section Part.
  Context {R : CRing}.
  Variables (Px Py Pw : part) (co ci : Z) (w : window) (groups cin cout : Z).
  Variables (W : tensor R) (bias : option (tensor R)) (X Y dY : tensor R).
  Let nk := length (w_kernel w).
  Let S := repeat 1 nk.
  Hypothesis HL : conv_layer Px Py Pw co ci S w groups cin cout W bias X Y.
  Hypothesis HE : plain groups Px Py Pw.
  Variables (b : Z) (xs ys : list Z).
  Hypothesis EX : tshape X = b :: cin :: xs.
  Hypothesis Lxs : length xs = nk.
  Hypothesis EY : tshape Y = b :: cout :: ys.
  Hypothesis ED : tshape dY = tshape Y.

  Definition x_part (i : Z) : tensor R := block (balanced (tshape X) (1 :: ci :: S)) (0 :: i :: repeat 0 nk) X.
  Definition y_block (j : Z) : tensor R := block (balanced (tshape Y) (1 :: co :: S)) (0 :: j :: repeat 0 nk) dY.
  Definition back_part (j i : Z) : tensor R :=
    input_gradient (conv_coefficients (subshape1 co j cout) groups (weight_block co ci w W j i)) w (tshape (x_part i)) (y_block j).

  Lemma p_seq : counts xs w ys /\ 0 < b /\ 0 < cin /\ Forall (fun n => 0 < n) ys /\ length ys = nk.
  Proof. exact (h_seq Px Py Pw co ci S w groups cin cout W bias X Y HL b xs ys EX Lxs EY). Qed.
  Lemma p_facts : 0 < co <= cout /\ 0 < ci <= cin /\ 0 < groups /\ (groups | cout) /\ (groups | cin) /\
    (groups = 1 \/ co = 1 /\ ci = 1) /\ tshape W = cout :: cin / groups :: w_kernel w.
  Proof.
    clear - HL HE. pose proof (k_pos Px Py Pw co ci S w groups cin cout W bias X Y HL) as (P1 & P2 & _).
    apply (h_facts Px Py Pw co ci S w groups cin cout W bias X Y HL HE 0 0); lia.
  Qed.
  Lemma p_window : window_ok (length (w_kernel w)) w.
  Proof. apply HL. Qed.

  Lemma x_shape i : 0 <= i < ci -> tshape (x_part i) = b :: subshape1 ci i cin :: xs.
  Proof.
    intros Hi. unfold x_part, S. cbn [block tshape]. rewrite EX, !bal_shape_cons by lia. rewrite unit_sub, <- Lxs. now rewrite ones_shape.
  Qed.
  Lemma y_shape j : 0 <= j < co -> tshape (y_block j) = b :: subshape1 co j cout :: ys.
  Proof.
    intros Hj. destruct p_seq as (_ & _ & _ & _ & Ly). unfold y_block, S. cbn [block tshape]. rewrite EY, !bal_shape_cons by lia.
    rewrite unit_sub, <- Ly. now rewrite ones_shape.
  Qed.
  Lemma y_value j b' c o : 0 <= j < co -> length o = nk -> tat (y_block j) (b' :: c :: o) = tat dY (b' :: start1 co j cout + c :: o).
  Proof.
    intros Hj Lo. destruct p_seq as (_ & _ & _ & _ & Ly). unfold y_block, S. cbn [block tat]. rewrite EY, !bal_lo_cons by lia.
    rewrite start1_0 by lia. rewrite <- Ly, ones_lo. pose proof (zeros_vadd (length ys) o ltac:(congruence)) as Ez. unfold vadd in *.
    cbn [map2]. now rewrite Ez, Z.add_0_l.
  Qed.

  Variables (j i : Z).
  Hypothesis Hj : 0 <= j < co.
  Hypothesis Hi : 0 <= i < ci.

  (** The worker's torch layer. *)
  Section Worker.
  Variables (wt t g : tensor R).
  Hypothesis Hwt : teq wt (weight_block co ci w W j i).
  Hypothesis Ht : teq t (x_part i).
  Hypothesis Hg : teq g (y_block j).

  Lemma p_wt : tshape wt = subshape1 co j cout :: subshape1 ci i cin / groups :: w_kernel w.
  Proof.
    destruct p_facts as (F1 & F2 & F3 & F4 & F5 & F6 & F7).
    rewrite (local_groups co ci w groups cin cout W F2 F3 F4 F5 F6 F7 i Hi). destruct Hwt as [E _]. rewrite E.
    exact (weight_block_shape co ci w groups cin cout W F7 j i Hj Hi).
  Qed.
  Lemma p_c0 : nth 0 (tshape wt) 0 = subshape1 co j cout.
  Proof. now rewrite p_wt. Qed.
  Lemma p_cout : 0 < subshape1 co j cout /\ (groups | subshape1 co j cout).
  Proof.
    destruct p_facts as (F1 & F2 & F3 & F4 & F5 & F6 & F7). exact (local_cout co ci w groups cin cout W F1 F3 F4 F5 F6 F7 j Hj).
  Qed.
  Lemma p_cin : 0 < subshape1 ci i cin.
  Proof. destruct p_facts as (F1 & F2 & _). apply subshape1_pos; lia. Qed.
  Lemma p_len : length (tshape (x_part i)) = Datatypes.S (Datatypes.S (length (w_kernel w))).
  Proof. rewrite x_shape by auto. cbn [length]. now rewrite Lxs. Qed.

  Lemma p_input : exists t', torch_conv_input_grad w groups wt t g = Ok t' /\ teq t' (back_part j i).
  Proof.
    destruct p_seq as (Hcnt & Hb & Hc & Hys & Ly). destruct p_facts as (F1 & F2 & F3 & F4 & F5 & F6 & F7). destruct p_cout as [C1 C2].
    destruct (single_input w (subshape1 co j cout) groups (x_part i) (y_block j) b (subshape1 ci i cin) xs ys
                p_window (x_shape i Hi) p_len Hcnt Hb p_cin Hys C1 F3 C2 (y_shape j Hj) t g Ht Hg wt p_wt) as (t' & E & T).
    exists t'. split; [unfold torch_conv_input_grad; rewrite p_c0; exact E|].
    eapply teq_trans; [exact T|]. split; [reflexivity|]. intros q Hq. unfold back_part. cbn [input_gradient tshape] in Hq.
    cbn [input_gradient tat]. rewrite x_shape in Hq by auto.
    apply valid_index_cons_inv in Hq as (b' & q1 & -> & Hb' & Hq). apply valid_index_cons_inv in Hq as (ch & q' & -> & Hch & Hq).
    apply sumf_ext. intros c Hc'. apply sumf_ext. intros o Ho. apply sumf_ext. intros k Hk.
    destruct (list_eq_dec _ _ _); auto. f_equal. rewrite y_shape in Hc' by auto. apply in_zrange in Hc'. cbn [nth] in Hc'.
    apply in_indices in Hk. rewrite x_shape by auto. cbn [nth]. unfold conv_coefficients.
    destruct (_ && _) eqn:Et; auto. apply andb_true_iff in Et as [L1 L2]. apply Z.leb_le in L1. apply Z.ltb_lt in L2.
    destruct Hwt as [_ V]. apply V. rewrite p_wt. apply valid_index_cons. split; [auto|]. apply valid_index_cons. split; [lia|auto].
  Qed.

  Lemma p_weight : exists t', torch_conv_weight_grad w groups wt t g = Ok t' /\
    teq t' (block (balanced (tshape W) (co :: ci :: repeat 1 nk)) (j :: i :: repeat 0 nk) (weight_gradient w cout groups X dY)).
  Proof.
    destruct p_seq as (Hcnt & Hb & Hc & Hys & Ly). destruct p_facts as (F1 & F2 & F3 & F4 & F5 & F6 & F7). destruct p_cout as [C1 C2].
    destruct (own_pad w (x_part i) b (subshape1 ci i cin) xs p_window (x_shape i Hi) p_len t) as (t' & Et & _); [destruct Ht as [E _]; rewrite E; now apply x_shape|].
    unfold torch_conv_weight_grad. rewrite Et, p_c0. eexists. split; [reflexivity|].
    eapply teq_trans.
    { exact (single_weight w (subshape1 co j cout) groups (x_part i) (y_block j) b (subshape1 ci i cin) xs ys
               p_window (x_shape i Hi) p_len Hcnt Hb p_cin Hys C1 F3 C2 (y_shape j Hj) t g Ht Hg t' Et). }
    split.
    - cbn [weight_gradient block tshape]. rewrite x_shape by auto. cbn [nth]. rewrite F7, !bal_shape_cons by auto. rewrite ones_shape.
      now rewrite (local_groups co ci w groups cin cout W F2 F3 F4 F5 F6 F7 i Hi).
    - intros q Hq. cbn [weight_gradient tshape] in Hq. rewrite x_shape in Hq by auto. cbn [nth] in Hq.
      apply valid_index_cons_inv in Hq as (c & q1 & -> & Hc' & Hq). apply valid_index_cons_inv in Hq as (m & k & -> & Hm & Hk).
      pose proof (valid_index_length _ _ Hk) as Lk.
      cbn [weight_gradient block tat]. rewrite F7, !bal_lo_cons by lia. rewrite ones_lo.
      pose proof (zeros_vadd (length (w_kernel w)) k Lk) as Ez. unfold vadd in *. cbn [map2]. rewrite Ez.
      rewrite y_shape, x_shape, ED, EX, EY by auto. cbn [nth skipn].
      apply sumf_ext. intros b' Hb'. apply sumf_ext. intros o Ho. apply in_indices in Ho. apply valid_index_length in Ho.
      rewrite y_value by (auto; congruence). f_equal.
      rewrite (local_groups co ci w groups cin cout W F2 F3 F4 F5 F6 F7 i Hi) in *.
      assert (Eq : start1 ci i cin + (c / (subshape1 co j cout / groups) * subshape1 ci i (cin / groups) + m) =
                   (start1 co j cout + c) / (cout / groups) * (cin / groups) + (start1 ci i (cin / groups) + m) /\
                   0 <= c / (subshape1 co j cout / groups) * subshape1 ci i (cin / groups) + m < subshape1 ci i cin).
      { now apply channel_index. }
      destruct Eq as [Eq Er]. rewrite <- Eq. unfold x_part, S. rewrite <- Lxs.
      apply channel_value with (b := b); auto; try lia. apply vec_length.
  Qed.

  Lemma p_bias : exists t', torch_conv_bias_grad wt g = Ok t' /\ teq t' (block (balanced [cout] [co]) [j] (bias_gradient cout dY)).
  Proof.
    destruct p_seq as (Hcnt & Hb & Hc & Hys & Ly). destruct p_facts as (F1 & F2 & F3 & F4 & F5 & F6 & F7). destruct p_cout as [C1 C2].
    unfold torch_conv_bias_grad. rewrite p_c0. eexists. split; [reflexivity|].
    eapply teq_trans.
    { exact (single_bias w (subshape1 co j cout) (x_part i) (y_block j) b (subshape1 ci i cin) xs ys
               p_window (x_shape i Hi) p_len Hcnt Hb p_cin Hys (y_shape j Hj) t g Ht Hg). }
    split.
    - cbn [bias_gradient block tshape]. unfold block_shape, balanced. cbn [map2]. now rewrite balanced1_nth.
    - intros q Hq. apply valid_index_cons_inv in Hq as (c & q1 & -> & Hc' & Hq). apply valid_index_nil in Hq. subst q1.
      cbn [bias_gradient block tat]. unfold block_lo, balanced, vadd. cbn [map2]. rewrite balanced1_prefix by lia. cbn [nth].
      rewrite y_shape, ED, EY by auto. cbn [nth skipn]. apply sumf_ext. intros b' Hb'. apply sumf_ext. intros o Ho.
      apply in_indices in Ho. apply valid_index_length in Ho. rewrite y_value by (auto; congruence). reflexivity.
  Qed.
  End Worker.

  (** The workers with input channels [i] together have the block of the gradient. *)
  Lemma parts_back q : valid_index (tshape (x_part i)) q ->
    sumf (zrange co) (fun j => tat (back_part j i) q) =
    tat (block (balanced (tshape X) (1 :: ci :: S)) (0 :: i :: repeat 0 nk) (input_gradient (conv_coefficients cout groups W) w (tshape X) dY)) q.
  Proof.
    clear Hj j. intros Hq. destruct p_seq as (Hcnt & Hb & Hc & Hys & Ly). destruct p_facts as (F1 & F2 & F3 & F4 & F5 & F6 & F7).
    rewrite x_shape in Hq by auto.
    apply valid_index_cons_inv in Hq as (b' & q1 & -> & Hb' & Hq). apply valid_index_cons_inv in Hq as (ch & q & -> & Hch & Hq).
    pose proof (valid_index_length _ _ Hq) as Lq.
    cbn [block tat]. unfold S. rewrite EX, !bal_lo_cons by lia. rewrite <- Lxs, ones_lo, start1_0 by lia.
    pose proof (zeros_vadd (length xs) q Lq) as Ez. unfold vadd in *. cbn [map2]. rewrite Ez, Z.add_0_l. clear Ez.
    cbn [input_gradient tat]. rewrite ED, EY. cbn [nth skipn].
    set (F := fun c => sumf (indices ys) (fun o => sumf (indices (w_kernel w)) (fun t =>
        if list_eq_dec Z.eq_dec (seen_point (length xs) w o t) q
        then rmul (conv_coefficients cout groups W cin c (start1 ci i cin + ch) t) (tat dY (b' :: c :: o)) else rzero))).
    change (sumf (zrange co) (fun j => tat (back_part j i) (b' :: ch :: q)) = sumf (zrange cout) F).
    rewrite <- (balanced_sum co cout F) by lia. apply sumf_ext. intros j Hj. apply in_zrange in Hj.
    unfold back_part. cbn [input_gradient tat]. rewrite x_shape, y_shape by auto. cbn [nth skipn].
    apply sumf_ext. intros c Hc'. apply in_zrange in Hc'. unfold F. apply sumf_ext. intros o Ho. apply in_indices in Ho. apply valid_index_length in Ho.
    apply sumf_ext. intros t Ht. apply in_indices in Ht. apply valid_index_length in Ht. destruct (list_eq_dec _ _ _); auto.
    rewrite y_value by (auto; congruence). f_equal. unfold conv_coefficients.
    rewrite (local_groups co ci w groups cin cout W F2 F3 F4 F5 F6 F7 i Hi).
    destruct F6 as [E|[E1 E2]].
    - rewrite E, !Z.div_1_r. pose proof (start1_sub_le co j cout ltac:(lia) ltac:(lia) Hj). pose proof (start1_sub_le ci i cin ltac:(lia) ltac:(lia) Hi).
      rewrite (Z.div_small c) by lia. rewrite (Z.div_small (_ + c)) by lia. rewrite !Z.mul_0_l, !Z.add_0_l, !Z.sub_0_r.
      rewrite !(proj2 (Z.leb_le _ _)) by lia. rewrite !(proj2 (Z.ltb_lt _ _)) by lia. cbn [andb].
      rewrite (weight_block_at co ci w groups cin cout W F1 F2 F3 F7) by auto. now rewrite E, Z.div_1_r.
    - assert (Ej : j = 0) by lia. assert (Ei : i = 0) by lia. rewrite Ej, Ei in *. rewrite E1, E2, !unit_sub, !start1_0, !Z.add_0_l by lia.
      destruct (_ && _); auto. rewrite (weight_block_at 1 1 w groups cin cout W ltac:(lia) ltac:(lia) F3 F7) by (auto; lia). now rewrite !start1_0, !Z.add_0_l by lia.
  Qed.
End Part.

Lemma c_receivers Px Py Pw co ci S : conv_partitions Px Py Pw co ci S -> forall i s v, worker_at Px (0 :: i :: s) v ->
  receivers Px Pw v (map (fun j => wk Pw (j :: i :: s)) (zrange co)).
Proof.
  intros HP i s v Hv. destruct (px_idx _ _ _ _ _ _ HP _ (proj1 Hv)) as (i' & s' & E & Hi & Hs). inversion E; subst i' s'. clear E.
  pose proof (c_pw _ _ _ _ _ _ HP) as Hw. split.
  - apply NoDup_map_inj; [|apply zrange_nodup]. intros j j' Hj Hj' E. apply in_zrange in Hj, Hj'.
    apply wk_inj in E; [congruence|auto|now apply (pw_ok _ _ _ _ _ _ HP)|now apply (pw_ok _ _ _ _ _ _ HP)].
  - intros u. rewrite in_map_iff. split.
    + intros (j & <- & Hj). apply in_zrange in Hj. exists (0 :: i :: s), (j :: i :: s). split; [auto|].
      split; [apply wk_worker; auto; now apply (pw_ok _ _ _ _ _ _ HP)|]. cbn [flip]. rewrite (c_sx _ _ _ _ _ _ HP).
      symmetry. eapply proj_x; eauto.
    + intros Hp. destruct (c_source _ _ _ _ _ _ HP v u Hp) as (j & i' & s' & Hu & Hv' & Hj & Hi' & Hs').
      pose proof (worker_at_fun Px _ _ v (c_px _ _ _ _ _ _ HP) Hv Hv') as E. inversion E; subst i' s'.
      exists j. split; [now apply worker_wk|now apply in_zrange].
Qed.

(** * C54 *)
Lemma C54_proof : C54_statement.
Proof.
  intros R Px Py Pw co ci w groups cin cout W bias X Y dY weight bias_of x dy dt dt' rg rg' HL HE HH HX HO ED HD HOd.
  set (nk := length (w_kernel w)) in *. set (S := repeat 1 nk) in *.
  pose proof (k_parts _ _ _ _ _ _ _ _ _ _ _ _ _ _ HL) as HP.
  pose proof (k_pos _ _ _ _ _ _ _ _ _ _ _ _ _ _ HL) as (P1 & P2 & P3).
  pose proof HL as (_ & HS & Hw & Hco & Hci & Hg & Hgo & Hgi & HW & HB & (b & xs & EX & Lxs & Nxs) & HY).
  pose proof HY as (b0 & c & xs' & ys & EX' & EY & Hcnt & Hb & Hc & Hys & _). rewrite EX in EX'. inversion EX'; subst b0 c xs'. clear EX'.
  pose proof (p_facts Px Py Pw co ci w groups cin cout W bias X Y HL HE) as Facts.
  pose proof (p_seq Px Py Pw co ci w groups cin cout W bias X Y HL b xs ys EX Lxs EY) as (_ & _ & _ & _ & Ly).
  assert (HSk : ChannelConv = ChannelConv -> S = repeat 1 (length S)) by (intros _; unfold S; now rewrite repeat_length).
  pose proof (c_pw _ _ _ _ _ _ HP) as Ww. pose proof (c_px _ _ _ _ _ _ HP) as Wx. pose proof (c_py _ _ _ _ _ _ HP) as Wy.
  pose proof (c_sx _ _ _ _ _ _ HP) as Sx. pose proof (c_sy _ _ _ _ _ _ HP) as Sy.
  assert (Ones : forall s, valid_index S s -> s = repeat 0 nk) by (intros s Hs; now apply ones_idx).
  assert (Ix : forall idx v, worker_at Px idx v -> exists i, idx = 0 :: i :: repeat 0 nk /\ 0 <= i < ci).
  { intros idx v Hv. destruct (px_idx _ _ _ _ _ _ HP idx (proj1 Hv)) as (i & s & -> & Hi & Hs). apply Ones in Hs. subst s. eauto. }
  assert (Iy : forall idx v, worker_at Py idx v -> exists j, idx = 0 :: j :: repeat 0 nk /\ 0 <= j < co).
  { intros idx v Hv. destruct (py_idx _ _ _ _ _ _ HP idx (proj1 Hv)) as (i & s & -> & Hi & Hs). apply Ones in Hs. subst s. eauto. }
  assert (Iw : forall idx v, worker_at Pw idx v -> exists j i, idx = j :: i :: repeat 0 nk /\ 0 <= j < co /\ 0 <= i < ci).
  { intros idx v Hv. destruct (pw_idx _ _ _ _ _ _ HP idx (proj1 Hv)) as (j & i & s & -> & Hj & Hi & Hs). apply Ones in Hs. subst s. eauto. }
  assert (Bx : forall i v, worker_at Px (0 :: i :: repeat 0 nk) v -> teq (x v) (x_part ci w X i)).
  { intros i v Hv. destruct HX as [_ HX]. pose proof (HX _ _ Hv) as Q. rewrite Sx in Q. exact Q. }
  assert (By : forall j v, worker_at Py (0 :: j :: repeat 0 nk) v -> teq (dy v) (y_block co w Y dY j)).
  { intros j v Hv. destruct HD as [_ HD]. pose proof (HD _ _ Hv) as Q. rewrite Sy in Q. exact Q. }
  assert (Bw : forall j i v, worker_at Pw (j :: i :: repeat 0 nk) v -> teq (weight v) (weight_block co ci w W j i)) by apply HH.
  assert (Lin : forall j i wt t g, 0 <= j < co -> 0 <= i < ci -> teq wt (weight_block co ci w W j i) -> teq t (x_part ci w X i) -> teq g (y_block co w Y dY j) ->
    (exists t', torch_conv_input_grad w groups wt t g = Ok t' /\ teq t' (back_part co ci w groups cout W X Y dY j i)) /\
    (exists t', torch_conv_weight_grad w groups wt t g = Ok t' /\
      teq t' (block (balanced (tshape W) (co :: ci :: repeat 1 nk)) (j :: i :: repeat 0 nk) (weight_gradient w cout groups X dY))) /\
    (exists t', torch_conv_bias_grad wt g = Ok t' /\ teq t' (block (balanced [cout] [co]) [j] (bias_gradient cout dY)))).
  { intros j i wt t g Hj Hi Q1 Q2 Q3. split; [|split].
    - eapply p_input; eauto.
    - eapply p_weight; eauto.
    - eapply p_bias; eauto. }
  assert (Sum : forall i q, 0 <= i < ci -> valid_index (tshape (x_part ci w X i)) q ->
    sumf (zrange co) (fun j => tat (back_part co ci w groups cout W X Y dY j i) q) =
    tat (block (balanced (tshape X) (p_shape Px)) (0 :: i :: repeat 0 nk) (input_gradient (conv_coefficients cout groups W) w (tshape X) dY)) q).
  { intros i q Hi Hq. rewrite Sx. eapply parts_back; eauto. }
  assert (Rx : forall v, recast_x ChannelConv Px Pw v = Ok Px) by (intros v; exact (c_recast_x Px Py Pw co ci S HP ChannelConv v HSk)).
  assert (Ry : forall v, recast_y ChannelConv Py Pw v = Ok (y_part Py co S)) by (intros v; exact (c_recast_y Px Py Pw co ci S HP ChannelConv v HSk)).
  destruct (Nat.eqb_spec (length (p_ranks Pw)) 1) as [E1|E1].
  - (* one worker *)
    pose proof HE as [_ E4]. destruct (E4 E1) as [E5 E6].
    assert (Sv : forall v, In v (p_ranks Pw) -> serial Pw v = true).
    { intros v Hv. unfold serial. apply is_active_spec in Hv. now rewrite Hv, E1. }
    assert (One : forall v v', In v (p_ranks Pw) -> In v' (p_ranks Pw) -> v = v').
    { intros v v' Hv Hv'. destruct (p_ranks Pw) as [|a [|]]; try discriminate. destruct Hv as [<-|[]], Hv' as [<-|[]]. auto. }
    destruct (one_shape Px Py Pw co ci S w groups cin cout W bias X Y HL E1 weight bias_of HH) as (Q1 & Q2 & _).
    assert (W0 : forall v, In v (p_ranks Pw) -> worker_at Pw (0 :: 0 :: repeat 0 nk) v /\ worker_at Px (0 :: 0 :: repeat 0 nk) v /\ worker_at Py (0 :: 0 :: repeat 0 nk) v).
    { intros v Hv.
      destruct (worker_at_exists Pw v Ww Hv) as [k1 K1]. destruct (Iw _ _ K1) as (j & i & -> & Hj & Hi).
      destruct (worker_at_exists Px v Wx) as [k2 K2]; [now rewrite E5|]. destruct (Ix _ _ K2) as (i2 & -> & Hi2).
      destruct (worker_at_exists Py v Wy) as [k3 K3]; [now rewrite E6|]. destruct (Iy _ _ K3) as (j3 & -> & Hj3).
      assert (j = 0) by lia. assert (i = 0) by lia. assert (i2 = 0) by lia. assert (j3 = 0) by lia. now subst. }
    assert (L0 : forall v, In v (p_ranks Pw) -> _) by (intros v Hv; destruct (W0 v Hv) as (A & B & C);
      exact (Lin 0 0 (weight v) (x v) (dy v) ltac:(lia) ltac:(lia) (Bw _ _ _ A) (Bx _ _ B) (By _ _ C))).
    cbv beta in L0.
    split; [|split; [|split; [|split; [|split]]]].
    + intros idx v Hv. pose proof (worker_at_In _ _ _ Hv) as Hin. rewrite E5 in Hin. destruct (Ix _ _ Hv) as (i & -> & Hi). assert (i = 0) by lia. subst i.
      destruct (L0 v Hin) as ((t & E & T) & _). exists t. split.
      * unfold channel_conv_backward. rewrite active_test by auto. rewrite Rx, Ry. cbn [rbind]. now rewrite Sv.
      * eapply teq_trans; [exact T|]. split; [cbn [back_part input_gradient block tshape]; now rewrite Sx|].
        intros q Hq. rewrite <- Sum by (auto; lia). rewrite Q1. change (zrange 1) with [0]. rewrite sumf_cons, sumf_nil, radd_0_r. reflexivity.
    + intros j i v Hv. pose proof (worker_at_In _ _ _ Hv) as Hin. destruct (Iw _ _ Hv) as (j' & i' & E & Hj & Hi). inversion E; subst j' i'.
      assert (j = 0) by lia. assert (i = 0) by lia. subst j i. destruct (L0 v Hin) as (_ & (t & E' & T) & _). exists t. split; [|exact T].
      unfold channel_weight_gradient, channel_layer_gradient. rewrite Rx, Ry. cbn [rbind]. now rewrite Sv.
    + intros j v Hv Hbn. pose proof (worker_at_In _ _ _ Hv) as Hin. destruct (Iw _ _ Hv) as (j' & i' & E & Hj & Hi). inversion E; subst j' i'.
      assert (j = 0) by lia. subst j. destruct (L0 v Hin) as (_ & _ & (t & E' & T)). exists t. split; [|exact T].
      unfold channel_bias_gradient, channel_layer_gradient. rewrite Rx, Ry. cbn [rbind]. rewrite Sv by auto.
      apply (index_in_spec Pw v _ Ww) in Hv. rewrite Hv. destruct bias; [|congruence]. cbn [has_bias andb orb]. now rewrite E'.
    + intros v Hn. unfold channel_bias_gradient. destruct (index_in Pw v) as [idx|] eqn:Hv; [|reflexivity].
      destruct Hn as [Hn|Hn]; [now rewrite Hn|]. exfalso. apply (index_in_spec Pw v _ Ww) in Hv.
      destruct (Iw _ _ Hv) as (j & i & E & Hj & Hi). subst idx. assert (i = 0) by lia. subst i. exact (Hn j Hv).
    + intros v Hv Hn. exfalso. apply Hn. rewrite E5. destruct Hv; auto. congruence.
    + intros v N1 N2 N3. unfold channel_conv_backward. now rewrite inactive_test.
  - (* several workers *)
    assert (Nq : Nat.eqb (length (p_ranks Pw)) 1 = false) by (now apply Nat.eqb_neq).
    assert (Sv : forall v, serial Pw v = false) by (intros v; unfold serial; now rewrite Nq, andb_false_r).
    assert (Mv : forall v, partner_missing Pw v = false) by (intros v; unfold partner_missing; now rewrite Nq, andb_false_r).
    set (local := channel_local Pw w groups (has_bias bias) weight bias_of).
    set (out := fun u => match index_in Pw u with
                         | Some (j :: i :: s) => part_out co ci S w groups cin cout b ys W X bias j i s
                         | _ => x u end).
    set (back := fun u => match index_in Pw u with
                         | Some (j :: i :: s) => back_part co ci w groups cout W X Y dY j i
                         | _ => x u end).
    assert (Eo : forall j i s u, worker_at Pw (j :: i :: s) u -> out u = part_out co ci S w groups cin cout b ys W X bias j i s).
    { intros j i s u Hu. unfold out. apply index_in_spec in Hu; auto. now rewrite Hu. }
    assert (Eb : forall j i s u, worker_at Pw (j :: i :: s) u -> back u = back_part co ci w groups cout W X Y dY j i).
    { intros j i s u Hu. unfold back. apply index_in_spec in Hu; auto. now rewrite Hu. }
    assert (Shx : forall i, 0 <= i < ci -> tshape (x_part ci w X i) = b :: subshape1 ci i cin :: xs).
    { intros i Hi. eapply x_shape; eauto. }
    assert (Shy : forall j, 0 <= j < co -> tshape (y_block co w Y dY j) = b :: subshape1 co j cout :: ys).
    { intros j Hj. eapply y_shape; eauto. }
    assert (Np : forall (n k m : Z) l, 0 <= n -> 0 < m -> nonneg_shape l -> nonneg_shape (b :: subshape1 m k n :: l) /\ b :: subshape1 m k n :: l <> []).
    { intros n k m l Hn Hm Hl. split; [|discriminate]. constructor; [lia|]. constructor; [now apply subshape1_nonneg|auto]. }
    assert (HXx : forall v, In v (p_ranks Px) \/ In v (p_ranks Pw) \/ In v (p_ranks (y_part Py co S)) -> nonneg_shape (tshape (x v)) /\ tshape (x v) <> []).
    { intros v Hv. destruct (in_dec Z.eq_dec v (p_ranks Px)) as [Hin|Hin]; [|apply HO; auto; destruct Hv as [?|[?|?]]; auto; contradiction].
      destruct (worker_at_exists Px v Wx Hin) as [idx Hi]. destruct (Ix _ _ Hi) as (i & -> & Hi'). destruct (Bx i v Hi) as [-> _]. rewrite Shx by auto.
      apply Np; auto; lia. }
    assert (HYy : forall v, In v (p_ranks Px) \/ In v (p_ranks Pw) \/ In v (p_ranks (y_part Py co S)) -> nonneg_shape (tshape (dy v)) /\ tshape (dy v) <> []).
    { intros v Hv. destruct (in_dec Z.eq_dec v (p_ranks Py)) as [Hin|Hin]; [|apply HOd; auto; destruct Hv as [?|[?|?]]; auto; contradiction].
      destruct (worker_at_exists Py v Wy Hin) as [idx Hi]. destruct (Iy _ _ Hi) as (i & -> & Hi'). destruct (By i v Hi) as [-> _]. rewrite Shy by auto.
      apply Np; auto; try lia. eapply Forall_impl; [|exact Hys]. cbn. lia. }
    assert (HLl : forall s u t, paired Px Pw false false s u -> teq t (x s) -> exists t', local u t = Ok t' /\ teq t' (out u)).
    { intros s u t Hp Ht. destruct (c_source _ _ _ _ _ _ HP s u Hp) as (j & i & s' & Hu & Hs & Hj & Hi & Hs'). rewrite (Eo _ _ _ _ Hu).
      apply Ones in Hs'. subst s'. unfold local, channel_local. pose proof Hu as Hu'. apply index_in_spec in Hu'; auto. rewrite Hu'. cbn [nth].
      apply (padded_part Px Py Pw co ci S w groups cin cout W bias X Y HL HE b xs ys EX Lxs EY j i (weight u)); auto.
      - destruct HH as (_ & HH2 & _). destruct (Z.eqb_spec i 0) as [->|]; cbn [andb]; auto. unfold bias_block. destruct bias as [bb|]; cbn [has_bias]; auto.
      - eapply teq_trans; [exact Ht|]. now apply Bx. }
    assert (HOo : forall u, In u (p_ranks Pw) -> nonneg_shape (tshape (out u)) /\ tshape (out u) <> []).
    { intros u Hu. destruct (worker_at_exists Pw u Ww Hu) as [idx Hi].
      destruct (pw_idx _ _ _ _ _ _ HP idx (proj1 Hi)) as (j & i & s & -> & Hj & Hi' & Hs). rewrite (Eo _ _ _ _ Hi).
      apply part_nonneg with (Y := Y) (xs := xs); auto; lia. }
    assert (HSs : forall d u u', paired (y_part Py co S) Pw false false d u -> paired (y_part Py co S) Pw false false d u' -> tshape (out u) = tshape (out u')).
    { intros d u u' Hu Hu'. apply (c_destination _ _ _ _ _ _ HP) in Hu as (j & i & s & Hu & Hd), Hu' as (j' & i' & s' & Hu' & Hd').
      rewrite (Eo _ _ _ _ Hu), (Eo _ _ _ _ Hu'). pose proof (worker_at_fun Py _ _ d Wy Hd Hd') as E. inversion E. reflexivity. }
    assert (HGg : forall d u, paired (y_part Py co S) Pw false false d u -> tshape (dy d) = tshape (out u)).
    { intros d u Hu. apply (c_destination _ _ _ _ _ _ HP) in Hu as (j & i & s & Hu & Hd). rewrite (Eo _ _ _ _ Hu).
      destruct (Iy _ _ Hd) as (j' & E & Hj). inversion E; subst j' s. destruct (By _ _ Hd) as [-> _]. cbn [part_out tshape]. unfold y_block. cbn [block tshape].
      symmetry. refine (part_block_shape co S w groups cin cout b ys W X bias Hg Y xs EX Lxs EY HY P3 HS j (repeat 0 nk) Hj _).
      pose proof (proj1 Hd) as V. rewrite Sy in V. apply valid_index_cons in V as [_ V]. apply valid_index_cons in V as [_ V]. exact V. }
    assert (HNn : forall d, In d (p_ranks (y_part Py co S)) -> exists u, paired (y_part Py co S) Pw false false d u).
    { intros d Hin. destruct (worker_at_exists Py d Wy Hin) as [idx Hd]. destruct (Iy _ _ Hd) as (j & -> & Hj). exists (wk Pw (j :: 0 :: repeat 0 nk)).
      apply (c_destination _ _ _ _ _ _ HP). exists j, 0, (repeat 0 nk). split; auto. apply wk_worker; auto. apply (pw_ok _ _ _ _ _ _ HP); auto; [lia|].
      pose proof (proj1 Hd) as V. rewrite Sy in V. apply valid_index_cons in V as [_ V]. apply valid_index_cons in V as [_ V]. exact V. }
    assert (Triple : forall s u d, paired Px Pw false false s u -> paired (y_part Py co S) Pw false false d u ->
      exists j i, worker_at Pw (j :: i :: repeat 0 nk) u /\ worker_at Px (0 :: i :: repeat 0 nk) s /\ worker_at Py (0 :: j :: repeat 0 nk) d /\ 0 <= j < co /\ 0 <= i < ci).
    { intros s u d Hp Hq. destruct (c_source _ _ _ _ _ _ HP s u Hp) as (j & i & s' & Hu & Hs & Hj & Hi & Hs'). apply Ones in Hs'. subst s'.
      apply (c_destination _ _ _ _ _ _ HP) in Hq as (j' & i' & s' & Hu' & Hd). pose proof (worker_at_fun Pw _ _ u Ww Hu Hu') as E. inversion E; subst.
      exists j', i'. auto. }
    assert (HBb : forall s u d t g, paired Px Pw false false s u -> teq t (x s) -> paired (y_part Py co S) Pw false false d u -> teq g (dy d) ->
      exists t', torch_conv_input_grad w groups (weight u) t g = Ok t' /\ teq t' (back u)).
    { intros s u d t g Hp Ht Hq Hgg. destruct (Triple s u d Hp Hq) as (j & i & Hu & Hs & Hd & Hj & Hi). rewrite (Eb _ _ _ _ Hu).
      apply (Lin j i (weight u) t g Hj Hi (Bw _ _ _ Hu)); eapply teq_trans; eauto. }
    assert (HTt : forall s u, paired Px Pw false false s u -> tshape (back u) = tshape (x s)).
    { intros s u Hp. destruct (c_source _ _ _ _ _ _ HP s u Hp) as (j & i & s' & Hu & Hs & Hj & Hi & Hs'). rewrite (Eb _ _ _ _ Hu).
      apply Ones in Hs'. subst s'. destruct (Bx i s Hs) as [-> _]. reflexivity. }
    assert (Fl : bc_flags (y_part Py co S) false false) by (left; reflexivity).
    assert (Lay : forall bk j i u, worker_at Pw (j :: i :: repeat 0 nk) u -> exists t g, teq t (x_part ci w X i) /\ teq g (y_block co w Y dY j) /\ 0 <= j < co /\ 0 <= i < ci /\
      channel_layer_gradient Px Py Pw w groups (has_bias bias) dt dt' rg rg' weight bias_of x dy bk u = bk u t g).
    { intros bk j i u Hu.
      destruct (work_layer Px Pw (y_part Py co S) false false false dt dt' rg rg' local x dy out
                  (c_bc _ _ _ _ _ _ HP) (c_rd _ _ _ _ _ _ HP) Fl HXx (fun s u t p _ => HLl s u t p) HOo HSs HYy HGg HNn bk u (worker_at_In _ _ _ Hu))
        as (s & d & t & g & Hp & Ht & Hq & Hg' & E).
      destruct (Triple s u d Hp Hq) as (j' & i' & Hu' & Hs & Hd & Hj & Hi). pose proof (worker_at_fun Pw _ _ u Ww Hu Hu') as E'. inversion E'; subst j' i'.
      exists t, g. split; [eapply teq_trans; eauto|]. split; [eapply teq_trans; eauto|]. split; [auto|]. split; [auto|].
      unfold channel_layer_gradient. rewrite Rx, Ry. cbn [rbind]. rewrite Sv. exact E. }
    destruct (work_back_sum Px Pw (y_part Py co S) false false false dt dt' rg rg' local (fun u => torch_conv_input_grad w groups (weight u)) x dy out back
                (c_bc _ _ _ _ _ _ HP) (c_rd _ _ _ _ _ _ HP) Fl HXx (fun s u t p _ => HLl s u t p) HOo HSs HYy HGg HNn
                (fun s u d t g a b c e _ => HBb s u d t g a b c e) HTt) as (A & B & C).
    assert (Run : forall v, In v (p_ranks Px) \/ In v (p_ranks Py) \/ In v (p_ranks Pw) ->
      channel_conv_backward Px Py Pw w groups (has_bias bias) dt dt' rg rg' weight bias_of x dy v =
      work_backward Px Pw (y_part Py co S) false false false dt dt' rg rg' local (fun u => torch_conv_input_grad w groups (weight u)) x dy v).
    { intros v Hv. unfold channel_conv_backward. rewrite active_test by auto. rewrite Rx, Ry. cbn [rbind]. now rewrite Sv, Mv. }
    split; [|split; [|split; [|split; [|split]]]].
    + intros idx v Hv. pose proof (worker_at_In _ _ _ Hv) as Hin. rewrite Run by auto. destruct (Ix _ _ Hv) as (i & -> & Hi).
      destruct (A v _ Hin (c_receivers _ _ _ _ _ _ HP i _ v Hv)) as (t & E & T1 & T2). exists t. split; [exact E|].
      assert (Et : tshape t = tshape (x_part ci w X i)) by (rewrite T1; now apply Bx). split.
      * rewrite Et. cbn [block tshape]. rewrite Sx. reflexivity.
      * intros p Hp. rewrite T2 by auto. rewrite sumf_map. rewrite Et in Hp. rewrite <- Sum by auto.
        apply sumf_ext. intros j Hj. apply in_zrange in Hj. rewrite (Eb j i (repeat 0 nk)); auto. apply wk_worker; auto.
        apply (pw_ok _ _ _ _ _ _ HP); auto. pose proof (proj1 Hv) as V. rewrite Sx in V. apply valid_index_cons in V as [_ V]. apply valid_index_cons in V as [_ V]. exact V.
    + intros j i v Hv. destruct (Lay (fun u => torch_conv_weight_grad w groups (weight u)) j i v Hv) as (t & g & Ht & Hg' & Hj & Hi & E).
      unfold channel_weight_gradient. rewrite E. apply (Lin j i (weight v) t g Hj Hi (Bw _ _ _ Hv) Ht Hg').
    + intros j v Hv Hbn. destruct (Lay (fun u _ g => torch_conv_bias_grad (weight u) g) j 0 v Hv) as (t & g & Ht & Hg' & Hj & Hi & E).
      destruct (Lin j 0 (weight v) t g Hj Hi (Bw _ _ _ Hv) Ht Hg') as (_ & _ & (t' & E' & T)). exists t'. split; [|exact T].
      unfold channel_bias_gradient. rewrite E. apply (index_in_spec Pw v _ Ww) in Hv. rewrite Hv. destruct bias; [|congruence].
      cbn [has_bias andb nth]. rewrite Z.eqb_refl, orb_true_r. now rewrite E'.
    + intros v Hn. unfold channel_bias_gradient. destruct (index_in Pw v) as [idx|] eqn:Hv; [|reflexivity].
      destruct Hn as [Hn|Hn]; [now rewrite Hn|]. rewrite Sv. apply (index_in_spec Pw v _ Ww) in Hv.
      destruct (Iw _ _ Hv) as (j & i & -> & Hj & Hi). cbn [nth orb].
      destruct (i =? 0) eqn:E0; [|now rewrite andb_false_r]. apply Z.eqb_eq in E0. subst i. now apply Hn in Hv.
    + intros v Hv Hn. rewrite Run by tauto. apply B; auto.
    + intros v N1 N2 N3. unfold channel_conv_backward. now rewrite inactive_test.
Qed.

Theorem C54_channel_conv_gradients : C54_statement.
Proof. exact C54_proof. Qed.

(** The layer of C33's example: three input channels on workers 0 and 1, five output
    channels on workers 2, 7 and 1, the weight on workers 1 to 6. *)
Definition ex54_dY : tensor Zring := @mkt Zring [2; 5; 4] (fun i => 1 + row_major [2; 5; 4] i).
Definition ex54_dy (v : Z) : tensor Zring :=
  match index_in ex33_y v with Some idx => block (balanced [2; 5; 4] [1; 3; 1]) idx ex54_dY | None => @mkt Zring [0] (fun _ => 0) end.

Example C54_example :
  conv_layer ex33_x ex33_y ex33_w 3 2 [1] ex33_win 1 3 5 ex33_W (Some ex33_b) ex33_X ex33_Y /\
  plain 1 ex33_x ex33_y ex33_w /\
  conv_parameters_held ex33_w 3 2 ex33_win 5 ex33_W (Some ex33_b) ex33_weight ex33_bias /\
  holds_blocks ex33_x (balanced [2; 3; 4] [1; 2; 1]) ex33_X ex33_in /\ others_pass ex33_x ex33_y ex33_w ex33_in /\
  tshape ex54_dY = tshape ex33_Y /\ holds_blocks ex33_y (balanced [2; 5; 4] [1; 3; 1]) ex54_dY ex54_dy /\ others_pass ex33_y ex33_x ex33_w ex54_dy /\
  let dx := channel_conv_backward ex33_x ex33_y ex33_w ex33_win 1 true (fun _ => 0) (fun _ => 0) (fun _ => true) (fun _ => true)
              ex33_weight ex33_bias ex33_in ex54_dy in
  let dW := channel_weight_gradient ex33_x ex33_y ex33_w ex33_win 1 true (fun _ => 0) (fun _ => 0) (fun _ => true) (fun _ => true)
              ex33_weight ex33_bias ex33_in ex54_dy in
  let db := channel_bias_gradient ex33_x ex33_y ex33_w ex33_win 1 true (fun _ => 0) (fun _ => 0) (fun _ => true) (fun _ => true)
              ex33_weight ex33_bias ex33_in ex54_dy in
  map (tat (val (dx 1))) (indices [2; 1; 4]) = map (tat (input_gradient (conv_coefficients 5 1 ex33_W) ex33_win [2; 3; 4] ex54_dY))
    [[0; 2; 0]; [0; 2; 1]; [0; 2; 2]; [0; 2; 3]; [1; 2; 0]; [1; 2; 1]; [1; 2; 2]; [1; 2; 3]] /\
  tat (val (dx 1)) [0; 0; 1] = 4970 /\
  tshape (val (dW 4)) = [2; 1; 3] /\ tat (val (dW 4)) [1; 0; 2] = tat (weight_gradient ex33_win 5 1 ex33_X ex54_dY) [3; 2; 2] /\
  tat (weight_gradient ex33_win 5 1 ex33_X ex54_dY) [3; 2; 2] = 2668 /\
  (exists t, db 3 = Some (Ok t) /\ map (tat t) (indices [2]) = [164; 196]) /\ db 4 = None /\
  tshape (val (dx 7)) = [2; 0] /\ dx 8 = Ok (ex54_dy 8).
Proof.
  pose proof C33_channel_example as (A & B & C & D & E & _). do 5 (split; [assumption|]). split; [reflexivity|].
  split; [split; [reflexivity|]; intros idx v Hv; unfold ex54_dy; apply index_in_spec in Hv; [rewrite Hv|part_ok_tac]; apply teq_refl|].
  split; [intros v _ Hn; unfold ex54_dy; apply index_in_none in Hn; rewrite Hn; split; [repeat constructor; lia|discriminate]|].
  cbv zeta. split; [vm_compute; reflexivity|]. do 4 (split; [vm_compute; reflexivity|]). split; [|repeat split; vm_compute; reflexivity].
  eexists. split; vm_compute; reflexivity.
Qed.

Print Assumptions C54_channel_conv_gradients.
