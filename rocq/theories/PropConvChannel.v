(** C33 for the channel-distributed convolution. *)

From Verif Require Import Prelude SpecIndex SpecLayout SpecPartition SpecHalo ModelSlicing ModelDecomposition ModelPartition ProofSlicing
  ProofDecomposition ProofPartition Ring Tensor ModelCollectives ProofCollectives PropCollectives Blocks ModelUtilities P2P Rounds
  ModelRepartition ProofRepartition PropRepartition ModelHaloMixin ProofHaloMixin PropHaloMixin ModelHaloExchange PropHaloExchange
  ModelFeatureLayer SpecFeature ProofFeatureLayer PropFeatureLayer PropFeatureConv ModelLinear ProofWork PropLinear ModelConv ProofConv
  ProofConvParts PropConv.

Lemma nth_zeros k n : nth k (repeat 0 n) 0 = 0.
Proof. destruct (nth_in_or_default k (repeat 0 n) 0) as [H|H]; auto. now apply repeat_spec in H. Qed.
Lemma nth_ones k n : (k < n)%nat -> nth k (repeat 1 n) 0 = 1.
Proof. intros H. apply (repeat_spec n). apply nth_In. now rewrite repeat_length. Qed.
Lemma repeat_pos n : pos_shape (repeat 1 n).
Proof. apply Forall_forall. intros z Hz. apply repeat_spec in Hz. lia. Qed.
Lemma ones_idx n s : valid_index (repeat 1 n) s -> s = repeat 0 n.
Proof.
  revert s. induction n as [|n IH]; intros s Hs; cbn [repeat] in *; [now apply valid_index_nil in Hs|].
  apply valid_index_cons_inv in Hs as (i & t & -> & Hi & Ht). f_equal; [lia|auto].
Qed.

Section Channel.
  Context {R : CRing}.
  Variables (Px Py Pw : part) (co ci : Z) (S : list Z) (w : window) (groups cin cout : Z).
  Variables (W : tensor R) (bias : option (tensor R)) (X Y : tensor R).
  Hypothesis HL : conv_layer Px Py Pw co ci S w groups cin cout W bias X Y.
  Hypothesis HE : plain groups Px Py Pw.
  Variables (b : Z) (xs ys : list Z).
  Hypothesis EX : tshape X = b :: cin :: xs.
  Hypothesis Lxs : length xs = length (w_kernel w).
  Hypothesis EY : tshape Y = b :: cout :: ys.
  Let nk := length (w_kernel w).

  (** Parameters of worker (j, i, ...). *)
  Variables (j i : Z) (wt : tensor R) (bt : option (tensor R)).
  Hypothesis Hj : 0 <= j < co.
  Hypothesis Hi : 0 <= i < ci.
  Hypothesis Hwt : teq wt (weight_block co ci w W j i).
  Hypothesis Hbt : match (if i =? 0 then bias_block co cout bias j else None), bt with
                   | Some v, Some v' => teq v' v
                   | None, None => True
                   | _, _ => False
                   end.

  Lemma h_wt : tshape wt = subshape1 co j cout :: subshape1 ci i (cin / groups) :: w_kernel w.
  Proof.
    destruct HL as (HP & HS & Hw & Hco & Hci & Hg & Hgo & Hgi & HW & _). destruct Hwt as [E _]. rewrite E.
    now apply (weight_block_shape co ci w groups cin cout W HW).
  Qed.

  Lemma h_facts : 0 < co <= cout /\ 0 < ci <= cin /\ 0 < groups /\ (groups | cout) /\ (groups | cin) /\
    (groups = 1 \/ co = 1 /\ ci = 1) /\ tshape W = cout :: cin / groups :: w_kernel w.
  Proof.
    pose proof (k_groups _ _ _ _ _ _ _ _ _ _ _ _ _ _ HL HE) as Gr. pose proof (k_pos _ _ _ _ _ _ _ _ _ _ _ _ _ _ HL) as (P1 & P2 & _).
    destruct HL as (HP & HS & Hw & Hco & Hci & Hg & Hgo & Hgi & HW & _). intuition lia.
  Qed.

  Lemma h_check : subshape1 ci i cin = groups * nth 1 (tshape wt) 0.
  Proof.
    rewrite h_wt. cbn [nth]. destruct h_facts as (F1 & F2 & F3 & F4 & F5 & F6 & F7).
    exact (local_cin co ci w groups cin cout W F2 F3 F4 F5 F6 F7 i Hi).
  Qed.

  Let c0 := nth 0 (tshape wt) 0.
  Lemma h_c0 : c0 = subshape1 co j cout.
  Proof. unfold c0. now rewrite h_wt. Qed.

  Lemma h_kernel c' g g' : 0 <= c' < subshape1 co j cout ->
    (forall ch t, 0 <= ch < subshape1 ci i cin -> valid_index (w_kernel w) t -> g ch t = g' ch t) ->
    conv_kernel w c0 groups wt bt (subshape1 ci i cin) c' g = part_kernel co ci w groups cout W bias j i (subshape1 ci i cin) c' g'.
  Proof.
    intros Hc' Hg'. destruct h_facts as (F1 & F2 & F3 & F4 & F5 & F6 & F7).
    destruct HL as (_ & _ & _ & _ & _ & _ & _ & _ & _ & HB & _).
    unfold c0. rewrite (part_params co ci w groups cin cout W bias F2 F3 F4 F5 F6 F7 HB j i wt bt c' g Hj Hi Hwt Hbt Hc').
    exact (part_local co ci w groups cin cout W bias F1 F3 F4 F5 F6 F7 j i Hj _ c' g g' Hg' Hc').
  Qed.

  Lemma h_conv_local : kernel_local w (conv_kernel w c0 groups wt bt) (fun _ => c0).
  Proof.
    destruct h_facts as (F1 & F2 & F3 & F4 & F5 & F6 & F7). rewrite h_c0.
    destruct (local_cout co ci w groups cin cout W F1 F3 F4 F5 F6 F7 j Hj). now apply conv_local.
  Qed.

  Lemma h_seq : counts xs w ys /\ 0 < b /\ 0 < cin /\ Forall (fun n => 0 < n) ys /\ length ys = nk.
  Proof.
    destruct HL as (HP & HS & Hw & Hco & Hci & Hg & Hgo & Hgi & HW & HB & _ & HY).
    destruct (seq_parts S w groups cin cout b ys W X bias Y xs EX Lxs EY HY HS) as (A & B & C & D & E & _). auto.
  Qed.

  (** With torch's own padding, on a block of channels. *)
  Hypothesis HS1 : S = repeat 1 nk.

  Let xb := block (balanced (tshape X) (1 :: ci :: repeat 1 nk)) (0 :: i :: repeat 0 nk) X.

  Lemma xb_shape : tshape xb = b :: subshape1 ci i cin :: xs.
  Proof.
    pose proof h_facts as (F1 & F2 & _). unfold xb. cbn [block tshape]. rewrite EX, !bal_shape_cons by lia. rewrite unit_sub. unfold nk.
    rewrite <- Lxs. now rewrite ones_shape.
  Qed.

  Lemma xb_value b' ch p : length p = length xs -> tat xb (b' :: ch :: p) = tat X (b' :: start1 ci i cin + ch :: p).
  Proof.
    pose proof h_facts as (F1 & F2 & _). intros Lp. unfold xb. cbn [block tat]. rewrite ?EX, !bal_lo_cons by lia. unfold nk. rewrite <- Lxs, ones_lo.
    rewrite start1_0 by lia. pose proof (zeros_vadd (length xs) p Lp) as Ez. unfold vadd in *. cbn [map2]. now rewrite Z.add_0_l, Ez.
  Qed.

  (** The share of the output that these channels give is the output of a sequential
      layer on them. *)
  Lemma part_sequential : is_sequential (conv_kernel w c0 groups wt bt) (fun _ => c0) rzero w xb
    (part_out co ci S w groups cin cout b ys W X bias j i (repeat 0 nk)).
  Proof.
    pose proof h_facts as (F1 & F2 & F3 & F4 & F5 & F6 & F7). destruct h_seq as (Hcnt & Hb & Hc & Hys & Ly). pose proof xb_shape as Sb.
    exists b, (subshape1 ci i cin), xs, ys. split; [auto|]. split.
    { cbn [part_out tshape]. unfold part_shape. rewrite h_c0. do 2 f_equal. apply list_eq_nth with (d := 0).
      - rewrite vec_length. symmetry. exact Ly.
      - intros k Hk. rewrite vec_length in Hk. rewrite vec_nth by auto. rewrite HS1, nth_zeros, nth_ones by auto. apply unit_sub. }
    split; [auto|]. split; [auto|]. split; [apply subshape1_pos; lia|]. split; [auto|].
    intros b' c' o Hq. cbn [part_out tshape tat] in Hq |- *. unfold part_shape in Hq.
    apply valid_index_cons in Hq as [Hb' Hq]. apply valid_index_cons in Hq as [Hc' Ho]. symmetry. apply h_kernel; auto.
    intros ch t' Hch Ht'. set (p := vec (length xs) _).
    assert (Ep : read_point S w ys (repeat 0 nk) o t' = p).
    { unfold read_point, p. rewrite Lxs. fold nk. unfold vec. apply map_ext_in. intros k Hk. apply in_seq in Hk.
      rewrite HS1, nth_zeros, nth_ones by lia. rewrite start1_0 by lia. rewrite Z.add_0_l. reflexivity. }
    rewrite Ep. assert (Lp : length p = length xs) by apply vec_length. clearbody p. clear Ep.
    unfold value_at. rewrite Sb, EX.
    assert (Ei : inside (b :: subshape1 ci i cin :: xs) (b' :: ch :: p) = inside (b :: cin :: xs) (b' :: start1 ci i cin + ch :: p)).
    { apply Bool.eq_iff_eq_true. rewrite !inside_spec, !valid_index_cons.
      pose proof (start1_sub_le ci i cin ltac:(lia) ltac:(lia) Hi). intuition lia. }
    rewrite Ei. clear Ei. destruct (inside (b :: cin :: xs) (b' :: start1 ci i cin + ch :: p)); [|reflexivity]. now apply xb_value.
  Qed.

  Lemma padded_part t : teq t (block (balanced (tshape X) (1 :: ci :: repeat 1 nk)) (0 :: i :: repeat 0 nk) X) ->
    exists t', torch_conv true w groups wt bt t = Ok t' /\
               teq t' (part_out co ci S w groups cin cout b ys W X bias j i (repeat 0 nk)).
  Proof.
    intros Ht. fold xb in Ht. pose proof xb_shape as Sb.
    assert (Et : tshape t = b :: subshape1 ci i cin :: xs) by (destruct Ht as [E _]; congruence).
    unfold torch_conv. rewrite Et. cbn [nth]. rewrite h_check, Z.eqb_refl. fold c0.
    apply padded_serial with (G := xb); auto.
    - apply HL.
    - apply h_conv_local.
    - exact part_sequential.
    - rewrite Sb. cbn [length]. now rewrite Lxs.
  Qed.
End Channel.

(** One worker. *)
Section Serial.
  Context {R : CRing}.
  Variables (Px Py Pw : part) (co ci : Z) (S : list Z) (w : window) (groups cin cout : Z).
  Variables (W : tensor R) (bias : option (tensor R)) (X Y : tensor R).
  Hypothesis HL : conv_layer Px Py Pw co ci S w groups cin cout W bias X Y.
  Hypothesis HE : plain groups Px Py Pw.
  Hypothesis H1 : length (p_ranks Pw) = 1%nat.
  Variables weight bias_of : Z -> tensor R.
  Hypothesis HH : conv_parameters_held Pw co ci w cout W bias weight bias_of.
  Let nk := length (w_kernel w).

  Lemma one_shape : co = 1 /\ ci = 1 /\ S = repeat 1 nk.
  Proof.
    pose proof (k_parts _ _ _ _ _ _ _ _ _ _ _ _ _ _ HL) as HP. destruct (c_pos _ _ _ _ _ _ HP) as (P1 & P2 & P3).
    destruct (c_pw _ _ _ _ _ _ HP) as (_ & _ & _ & E). rewrite H1, (c_sw _ _ _ _ _ _ HP) in E.
    unfold zprod in E. cbn [fold_right] in E. fold (zprod S) in E. pose proof (zprod_pos _ P3).
    assert (A : co = 1 /\ ci = 1 /\ zprod S = 1) by (change (Z.of_nat 1) with 1 in E; assert (0 < ci * zprod S) by nia; assert (co = 1) by nia; nia).
    destruct A as (-> & -> & A). split; [auto|]. split; [auto|].
    assert (Ls : length S = nk) by apply HL. rewrite <- Ls. clear - A P3. induction P3 as [|n l Hn P3 IH]; [reflexivity|].
    unfold zprod in A. cbn [fold_right] in A. fold (zprod l) in A. pose proof (zprod_pos _ P3). assert (n = 1) by nia. subst n.
    cbn [length repeat]. f_equal. apply IH. lia.
  Qed.

  Lemma serial_ok idx v t : worker_at Py idx v -> teq t X ->
    exists t', torch_conv true w groups (weight v) (if has_bias bias then Some (bias_of v) else None) t = Ok t' /\
               teq t' (block (balanced (tshape Y) (p_shape Py)) idx Y).
  Proof.
    intros Hv Ht. destruct one_shape as (E1 & E2 & E3). pose proof HE as [_ E4]. destruct (E4 H1) as [E5 E6].
    pose proof (k_parts _ _ _ _ _ _ _ _ _ _ _ _ _ _ HL) as HP.
    pose proof HL as (_ & HS & Hw & Hco & Hci & Hg & Hgo & Hgi & HW & HB & (b & xs & EX & Lxs & Nxs) & HY).
    pose proof HY as (b0 & c & xs' & ys & EX' & EY & Hcnt & Hb & Hc & Hys & _). rewrite EX in EX'. inversion EX'; subst b0 c xs'. clear EX'.
    assert (Hz : valid_index S (repeat 0 nk)).
    { rewrite E3. clear. induction nk as [|n IH]; [constructor|]. cbn [repeat]. apply valid_index_cons. split; [lia|auto]. }
    assert (Hw0 : worker_at Pw (0 :: 0 :: repeat 0 nk) v).
    { assert (Hin : In v (p_ranks Pw)) by (rewrite <- E6; eapply worker_at_In; eauto).
      destruct (worker_at_exists Pw v (c_pw _ _ _ _ _ _ HP) Hin) as [idx' Hv'].
      destruct (pw_idx _ _ _ _ _ _ HP _ (proj1 Hv')) as (j & i & s & -> & Hj & Hi & Hs).
      assert (j = 0) by lia. assert (i = 0) by lia. subst j i. rewrite E3 in Hs. apply ones_idx in Hs. now subst s. }
    destruct (py_idx _ _ _ _ _ _ HP idx (proj1 Hv)) as (j & s & -> & Hj & Hs). assert (j = 0) by lia. subst j.
    pose proof Hs as Hs'. rewrite E3 in Hs'. apply ones_idx in Hs'. subst s. clear Hj.
    destruct HH as (HH1 & HH2 & _). fold nk in HH1, HH2.
    destruct (padded_part Px Py Pw co ci S w groups cin cout W bias X Y HL HE b xs ys EX Lxs EY 0 0 (weight v)
                (if has_bias bias then Some (bias_of v) else None) ltac:(lia) ltac:(lia)) with (t := t) as (t' & T1 & T2); auto.
    - apply HH1. exact Hw0.
    - cbn [Z.eqb]. unfold bias_block. destruct bias as [bb|]; cbn [has_bias]; auto.
    - eapply teq_trans; [exact Ht|]. apply teq_sym. rewrite E2. apply single_block.
      + rewrite balanced_workers; [|constructor; [lia|]; constructor; [lia|]; apply repeat_pos|rewrite EX; cbn [length]; rewrite repeat_length; congruence].
        constructor; auto. constructor; auto. apply Forall_forall. intros z Hz'. now apply repeat_spec in Hz'.
      + rewrite balanced_workers; [|constructor; [lia|]; constructor; [lia|]; apply repeat_pos|rewrite EX; cbn [length]; rewrite repeat_length; congruence].
        fold nk. rewrite <- E3. repeat (apply valid_index_cons; split; [lia|]). exact Hz.
      + rewrite balanced_shape; auto; [constructor; [lia|]; constructor; [lia|]; apply repeat_pos| |rewrite EX; cbn [length]; rewrite repeat_length; congruence].
        rewrite EX. constructor; [lia|]. constructor; [lia|]. exact Nxs.
    - exists t'. split; [exact T1|]. eapply teq_trans; [exact T2|]. split.
      + rewrite (c_sy _ _ _ _ _ _ HP). cbn [part_out tshape block]. destruct (k_pos _ _ _ _ _ _ _ _ _ _ _ _ _ _ HL) as (_ & _ & P3).
        refine (part_block_shape co S w groups cin cout b ys W X bias Hg Y xs EX Lxs EY HY P3 HS 0 (repeat 0 nk) _ Hs). lia.
      + intros q Hq. rewrite (c_sy _ _ _ _ _ _ HP). destruct (k_pos _ _ _ _ _ _ _ _ _ _ _ _ _ _ HL) as (P1 & P2 & P3).
        rewrite <- (parts_sum co ci S w groups cin cout b ys W X bias) with (xs := xs); auto; try lia.
        rewrite E2. change (zrange 1) with [0]. now rewrite sumf_cons, sumf_nil, radd_0_r.
  Qed.
End Serial.

Lemma delivers_ext {R : CRing} (Px Py Pw : part) (Y : tensor R) (x x' : Z -> tensor R) (y y' : Z -> result (tensor R)) :
  (forall v, In v (p_ranks Px) \/ In v (p_ranks Py) \/ In v (p_ranks Pw) -> y v = y' v) ->
  (forall v, ~ In v (p_ranks Px) -> ~ In v (p_ranks Pw) -> ~ In v (p_ranks Py) -> y v = Ok (x v)) ->
  conv_delivers Px Py Pw Y x' y' -> conv_delivers Px Py Pw Y x y.
Proof.
  intros E1 E2 (A & B & _). split; [|split; [|exact E2]].
  - intros idx d Hd. rewrite E1; [now apply A|]. right. left. eapply worker_at_In; eauto.
  - intros v Hv Hn. rewrite E1 by tauto. now apply B.
Qed.

Lemma active_test Px Py Pw v : In v (p_ranks Px) \/ In v (p_ranks Py) \/ In v (p_ranks Pw) -> inactive Px Py Pw v = false.
Proof.
  intros H. unfold inactive. apply negb_false_iff. apply orb_true_iff. rewrite orb_true_iff, !is_active_spec. tauto.
Qed.
Lemma inactive_test Px Py Pw v : ~ In v (p_ranks Px) -> ~ In v (p_ranks Pw) -> ~ In v (p_ranks Py) -> inactive Px Py Pw v = true.
Proof.
  intros H1 H2 H3. unfold inactive. apply is_active_false in H1, H2, H3. now rewrite H1, H2, H3.
Qed.

Lemma C33_channel_proof : C33_channel_statement plain.
Proof.
  intros R Px Py Pw co ci w groups cin cout W bias X Y weight bias_of x dt dt' rg rg' HL HE HH HX HO.
  set (S := repeat 1 (length (w_kernel w))) in *.
  pose proof (k_parts _ _ _ _ _ _ _ _ _ _ _ _ _ _ HL) as HP.
  pose proof HL as (_ & HS & Hw & Hco & Hci & Hg & Hgo & Hgi & HW & HB & (b & xs & EX & Lxs & Nxs) & HY).
  pose proof HY as (b0 & c & xs' & ys & EX' & EY & Hcnt & Hb & Hc & Hys & _). rewrite EX in EX'. inversion EX'; subst b0 c xs'. clear EX'.
  assert (NX : nonneg_shape (tshape X)) by (rewrite EX; constructor; [lia|]; constructor; [lia|auto]).
  assert (HSk : ChannelConv = ChannelConv -> S = repeat 1 (length S)) by (intros _; unfold S; now rewrite repeat_length).
  assert (LX : length (tshape X) = length (p_shape Px)) by (rewrite EX, (c_sx _ _ _ _ _ _ HP); cbn [length]; lia).
  assert (PX : pos_shape (p_shape Px)) by apply (c_px _ _ _ _ _ _ HP).
  split; [exact (k_weights _ _ _ _ _ _ _ _ _ _ _ _ _ _ HL HE b xs ys Lxs)|].
  destruct (Nat.eqb_spec (length (p_ranks Pw)) 1) as [E1|E1].
  - pose proof HE as [_ E4]. destruct (E4 E1) as [E5 E6]. split; [|split].
    + intros idx d Hd. pose proof (worker_at_In _ _ _ Hd) as Hin. unfold channel_conv_forward. rewrite active_test by auto.
      rewrite (c_recast_x Px Py Pw co ci S HP ChannelConv d HSk), (c_recast_y Px Py Pw co ci S HP ChannelConv d HSk). cbn [rbind].
      unfold serial. rewrite (proj2 (is_active_spec (p_ranks Pw) d)) by now rewrite <- E6. rewrite E1. cbn [Nat.eqb andb].
      apply (serial_ok Px Py Pw co ci S w groups cin cout W bias X Y HL HE E1 weight bias_of HH idx d (x d) Hd).
      assert (Hin' : In d (p_ranks Px)) by (rewrite E5, <- E6; auto).
      destruct (worker_at_exists Px d (c_px _ _ _ _ _ _ HP) Hin') as [idx' Hd']. destruct HX as [ES HX].
      eapply teq_trans; [apply (HX idx' d Hd')|].
      destruct (one_shape Px Py Pw co ci S w groups cin cout W bias X Y HL E1 weight bias_of HH) as (Q1 & Q2 & ES').
      apply single_block.
      * rewrite balanced_workers by auto. rewrite (c_sx _ _ _ _ _ _ HP), Q2. constructor; auto. constructor; auto.
        rewrite ES'. apply Forall_forall. intros z Hz. now apply repeat_spec in Hz.
      * rewrite balanced_workers by auto. apply Hd'.
      * now rewrite balanced_shape by auto.
    + intros v Hv Hn. exfalso. apply Hn. rewrite E6. destruct Hv; auto. congruence.
    + intros v H1 H2 H3. unfold channel_conv_forward. now rewrite inactive_test.
  - apply delivers_ext with (x' := x) (y' := work_forward Px Pw (y_part Py co S) false false false dt dt' rg rg'
      (channel_local Pw w groups (has_bias bias) weight bias_of) x).
    + intros v Hv. unfold channel_conv_forward. rewrite active_test by auto.
      rewrite (c_recast_x Px Py Pw co ci S HP ChannelConv v HSk), (c_recast_y Px Py Pw co ci S HP ChannelConv v HSk). cbn [rbind].
      unfold partner_missing, serial. apply Nat.eqb_neq in E1. rewrite E1, !andb_false_r. reflexivity.
    + intros v H1 H2 H3. unfold channel_conv_forward. now rewrite inactive_test.
    + apply (k_combine Px Py Pw co ci S w groups cin cout W bias X Y HL HE b xs ys EX Lxs EY); auto.
      * intros v Hv. destruct (worker_at_exists Px v (c_px _ _ _ _ _ _ HP) Hv) as [idx Hi]. destruct HX as [ES HX].
        destruct (HX idx v Hi) as [Ev _]. rewrite Ev. cbn [block tshape]. rewrite balanced_block_shape by (auto; apply Hi).
        destruct (px_idx _ _ _ _ _ _ HP idx (proj1 Hi)) as (i & s & -> & Hii & Hs).
        rewrite EX, (c_sx _ _ _ _ _ _ HP). unfold compute_subshape. cbn [map3]. split; [|discriminate].
        constructor; [rewrite unit_sub; lia|]. constructor; [apply subshape1_nonneg; lia|].
        clear - Nxs Hs HS Lxs. unfold S in *. apply ones_idx in Hs. subst s. rewrite <- Lxs. clear - Nxs.
        induction Nxs as [|n l Hn Nl IH]; [constructor|]. cbn [length repeat map3]. constructor; [now rewrite unit_sub|auto].
      * intros j i s u v t Hu Hv Hj Hi Hs Ht. unfold channel_local. pose proof Hu as Hu'.
        apply index_in_spec in Hu'; [|apply (c_pw _ _ _ _ _ _ HP)]. rewrite Hu'. cbn [nth].
        pose proof Hs as Hs'. unfold S in Hs'. apply ones_idx in Hs'. subst s. destruct HH as (HH1 & HH2 & _).
        apply (padded_part Px Py Pw co ci S w groups cin cout W bias X Y HL HE b xs ys EX Lxs EY j i (weight u)); auto.
        -- apply HH1; auto.
        -- destruct (Z.eqb_spec i 0) as [->|]; cbn [andb]; auto. unfold bias_block. destruct bias as [bb|]; cbn [has_bias]; auto.
        -- eapply teq_trans; [exact Ht|]. destruct HX as [_ HX]. pose proof (HX _ _ Hv) as HX'. rewrite (c_sx _ _ _ _ _ _ HP) in HX'. exact HX'.
Qed.

Theorem C33_channel_conv_partial : C33_channel_statement plain.
Proof. exact C33_channel_proof. Qed.

(** ** Not for groups, not for a lone weight worker elsewhere *)

Lemma valid2 (a c : Z) q : valid_index [a; c] q -> exists i j, q = [i; j] /\ 0 <= i < a /\ 0 <= j < c.
Proof.
  intros H. apply valid_index_cons_inv in H as (i & t & -> & Hi & H). apply valid_index_cons_inv in H as (j & t' & -> & Hj & H).
  apply valid_index_nil in H. subst. eauto.
Qed.
Lemma valid3 (a c d : Z) q : valid_index [a; c; d] q -> exists i j k, q = [i; j; k] /\ 0 <= i < a /\ 0 <= j < c /\ 0 <= k < d.
Proof.
  intros H. apply valid_index_cons_inv in H as (i & t & -> & Hi & H). apply valid2 in H as (j & k & -> & ? & ?). exists i, j, k. auto.
Qed.

(** Sequential output computed from its definition. *)
Definition seq_conv {R : CRing} (w : window) (cin cout groups : Z) (W : tensor R) (bias : option (tensor R)) (X : tensor R) (shape : list Z) : tensor R :=
  mkt shape (fun q => match q with
    | b' :: c' :: o => conv_kernel w cout groups W bias cin c' (fun ch t => value_at X rzero (b' :: ch ::
          vec (length (skipn 2 (tshape X))) (fun j => nth j (w_stride w) 0 * nth j o 0 - nth j (w_padding w) 0 + nth j (w_dilation w) 0 * nth j t 0)))
    | _ => rzero end).

Definition gr_x : part := mkpart 0 [0; 1] [1; 2; 1].
Definition gr_y : part := mkpart 0 [0] [1; 1; 1].
Definition gr_w : part := mkpart 0 [0; 1] [1; 2; 1].
Definition gr_win : window := mkwindow [1] [1] [0] [1].
Definition gr_X : tensor Zring := @mkt Zring [1; 4; 1] (fun q => nth 1 q 0).
Definition gr_W : tensor Zring := @mkt Zring [2; 2; 1] (fun _ => 1).
Definition gr_Y : tensor Zring := seq_conv gr_win 4 2 2 gr_W None gr_X [1; 2; 1].
Definition gr_in (v : Z) : tensor Zring :=
  match index_in gr_x v with Some idx => block (balanced [1; 4; 1] [1; 2; 1]) idx gr_X | None => @mkt Zring [0] (fun _ => 0) end.
Definition gr_weight (v : Z) : tensor Zring :=
  match index_in gr_w v with Some idx => block (balanced [2; 2; 1] [1; 2; 1]) idx gr_W | None => @mkt Zring [0] (fun _ => 0) end.
Definition gr_bias (v : Z) : tensor Zring := @mkt Zring [0] (fun _ => 0).

Ltac part_ok_tac :=
  split; [repeat (constructor; [simpl; lia|]); constructor|]; split; [discriminate|]; split; [repeat constructor|reflexivity].

Lemma unit_count n : 0 <= n -> counts [n] (mkwindow [1] [1] [0] [1]) [n].
Proof.
  intros Hn. split; [reflexivity|]. intros [|j] Hj; [|cbn in Hj; lia]. cbn [nth w_kernel w_stride w_padding w_dilation].
  split; [auto|]. intros o Ho. unfold window_fits. lia.
Qed.

Lemma unit_window : window_ok 1 (mkwindow [1] [1] [0] [1]).
Proof. repeat split; repeat constructor; cbn; lia. Qed.

Lemma gr_layer : conv_layer gr_x gr_y gr_w 1 2 [1] gr_win 2 4 2 gr_W None gr_X gr_Y.
Proof.
  split.
  { split; [part_ok_tac|]. split; [part_ok_tac|]. split; [part_ok_tac|]. repeat split. }
  split; [reflexivity|]. split; [apply unit_window|]. do 3 (split; [lia|]). split; [now exists 1|]. split; [now exists 2|].
  split; [reflexivity|]. split; [exact I|]. split; [exists 1, [1]; split; [reflexivity|]; split; [reflexivity|repeat constructor; lia]|].
  exists 1, 4, [1], [1]. do 2 (split; [reflexivity|]). split; [apply unit_count; lia|]. do 2 (split; [lia|]). split; [repeat constructor; lia|].
  intros b' c' o Ho. reflexivity.
Qed.

Theorem C33_groups_refuted :
  ~ C33_channel_statement (fun _ Px Py Pw => length (p_ranks Pw) = 1%nat -> p_ranks Px = p_ranks Pw /\ p_ranks Py = p_ranks Pw).
Proof.
  intros H.
  destruct (H Zring gr_x gr_y gr_w 1 2 gr_win 2 4 2 gr_W None gr_X gr_Y gr_weight gr_bias gr_in (fun _ => 0) (fun _ => 0) (fun _ => false) (fun _ => false)
              gr_layer) as [_ [A _]].
  - cbn. discriminate.
  - split; [|split; [exact I|]].
    + intros j i v Hv. unfold gr_weight. apply index_in_spec in Hv; [rewrite Hv|part_ok_tac]. apply teq_refl.
    + intros v [<-|[<-|[]]]; split; vm_compute; repeat constructor; discriminate.
  - split; [reflexivity|]. intros idx v Hv. unfold gr_in. apply index_in_spec in Hv; [rewrite Hv|part_ok_tac]. apply teq_refl.
  - intros v [Hv|Hv] Hn; exfalso; apply Hn; cbn in *; tauto.
  - destruct (A [0; 0; 0] 0) as (t & E & [_ V]).
    + split; [repeat (apply valid_index_cons; split; [lia|]); constructor|reflexivity].
    + assert (Et : @val Zring (channel_conv_forward gr_x gr_y gr_w gr_win 2 false (fun _ => 0) (fun _ => 0) (fun _ => false) (fun _ => false)
                             gr_weight gr_bias gr_in 0) = t).
      { change (has_bias None) with false in E. rewrite E. reflexivity. }
      assert (Sh : tshape t = [1; 2; 1]) by (rewrite <- Et; vm_compute; reflexivity).
      specialize (V [0; 0; 0]). rewrite Sh in V. rewrite <- Et in V.
      assert (K : valid_index [1; 2; 1] [0; 0; 0]) by (repeat (apply valid_index_cons; split; [lia|]); constructor).
      apply V in K. vm_compute in K. discriminate.
Qed.

(** P_w on worker 1 alone, the input and output on worker 0: worker 1 applies its
    layer to whatever it was passed and worker 0 waits for it. *)
Definition lo_w : part := mkpart 0 [1] [1; 1; 1].
Definition lo_X : tensor Zring := @mkt Zring [1; 1; 1] (fun _ => 1).
Definition lo_Y : tensor Zring := seq_conv gr_win 1 1 1 lo_X None lo_X [1; 1; 1].

Theorem C33_single_worker_refuted :
  ~ C33_channel_statement (fun groups _ _ _ => groups = 1).
Proof.
  intros H.
  destruct (H Zring gr_y gr_y lo_w 1 1 gr_win 1 1 1 lo_X None lo_X lo_Y (fun _ => lo_X) gr_bias (fun _ => lo_X)
              (fun _ => 0) (fun _ => 0) (fun _ => false) (fun _ => false)) as [_ [A _]].
  - split.
    { split; [part_ok_tac|]. split; [part_ok_tac|]. split; [part_ok_tac|]. repeat split. }
    split; [reflexivity|]. split; [apply unit_window|]. do 3 (split; [lia|]). split; [now exists 1|]. split; [now exists 1|].
    split; [reflexivity|]. split; [exact I|]. split; [exists 1, [1]; split; [reflexivity|]; split; [reflexivity|repeat constructor; lia]|].
    exists 1, 1, [1], [1]. do 2 (split; [reflexivity|]). split; [apply unit_count; lia|]. do 2 (split; [lia|]). split; [repeat constructor; lia|].
    intros b' c' o Ho. reflexivity.
  - reflexivity.
  - split; [|split; [exact I|]].
    + intros j i v Hv. destruct Hv as [Hv _]. apply valid3 in Hv as (j' & i' & k & E & Hj & Hi & Hk). inversion E; subst.
      assert (j' = 0) by lia. assert (i' = 0) by lia. subst. split; [reflexivity|]. intros q _. reflexivity.
    + intros v _; split; vm_compute; repeat constructor; discriminate.
  - split; [reflexivity|]. intros idx v [Hv _]. apply valid3 in Hv as (j' & i' & k & -> & Hj & Hi & Hk).
    assert (j' = 0) by lia. assert (i' = 0) by lia. assert (k = 0) by lia. subst. split; [reflexivity|]. intros q _. reflexivity.
  - intros v _ _. split; [repeat constructor; cbn; lia|discriminate].
  - destruct (A [0; 0; 0] 0) as (t & E & _).
    + split; [repeat (apply valid_index_cons; split; [lia|]); constructor|reflexivity].
    + vm_compute in E. discriminate.
Qed.

(** Three input and five output channels on a 3 x 2 grid of workers, kernel 3,
    padding 1: the input on workers 0 and 1, the output on 2, 7 and 1. *)
Definition ex33_x : part := mkpart 0 [0; 1] [1; 2; 1].
Definition ex33_y : part := mkpart 0 [2; 7; 1] [1; 3; 1].
Definition ex33_w : part := mkpart 0 [1; 2; 3; 4; 5; 6] [3; 2; 1].
Definition ex33_win : window := mkwindow [3] [1] [1] [1].
Definition ex33_X : tensor Zring := @mkt Zring [2; 3; 4] (fun i => row_major [2; 3; 4] i).
Definition ex33_W : tensor Zring := @mkt Zring [5; 3; 3] (fun i => 1 + row_major [5; 3; 3] i).
Definition ex33_b : tensor Zring := @mkt Zring [5] (fun i => 10000 * (1 + nth 0 i 0)).
Definition ex33_Y : tensor Zring := seq_conv ex33_win 3 5 1 ex33_W (Some ex33_b) ex33_X [2; 5; 4].
Definition ex33_in (v : Z) : tensor Zring :=
  match index_in ex33_x v with Some idx => block (balanced [2; 3; 4] [1; 2; 1]) idx ex33_X | None => @mkt Zring [0] (fun _ => 0) end.
Definition ex33_weight (v : Z) : tensor Zring :=
  match index_in ex33_w v with Some idx => block (balanced [5; 3; 3] [3; 2; 1]) idx ex33_W | None => @mkt Zring [0] (fun _ => 0) end.
Definition ex33_bias (v : Z) : tensor Zring :=
  match index_in ex33_w v with Some idx => block (balanced [5] [3]) [nth 0 idx 0] ex33_b | None => @mkt Zring [0] (fun _ => 0) end.

Example C33_channel_example :
  conv_layer ex33_x ex33_y ex33_w 3 2 [1] ex33_win 1 3 5 ex33_W (Some ex33_b) ex33_X ex33_Y /\
  plain 1 ex33_x ex33_y ex33_w /\
  conv_parameters_held ex33_w 3 2 ex33_win 5 ex33_W (Some ex33_b) ex33_weight ex33_bias /\
  holds_blocks ex33_x (balanced [2; 3; 4] [1; 2; 1]) ex33_X ex33_in /\ others_pass ex33_x ex33_y ex33_w ex33_in /\
  let y := channel_conv_forward ex33_x ex33_y ex33_w ex33_win 1 true (fun _ => 0) (fun _ => 0) (fun _ => true) (fun _ => true)
             ex33_weight ex33_bias ex33_in in
  tshape (val (y 7)) = [2; 2; 4] /\ tat (val (y 7)) [1; 1; 3] = tat ex33_Y [1; 3; 3] /\ tat ex33_Y [1; 3; 3] = 43546 /\
  tshape (val (y 2)) = [2; 2; 4] /\ tat (val (y 2)) [0; 1; 2] = tat ex33_Y [0; 1; 2] /\ tshape (val (y 3)) = [2; 0] /\ y 8 = Ok (ex33_in 8).
Proof.
  split; [|split; [|split; [|split; [|split]]]].
  - split.
    { split; [part_ok_tac|]. split; [part_ok_tac|]. split; [part_ok_tac|]. repeat split. }
    split; [reflexivity|]. split; [repeat split; repeat constructor; cbn; lia|]. do 3 (split; [lia|]). split; [now exists 5|]. split; [now exists 3|].
    split; [reflexivity|]. split; [reflexivity|]. split; [exists 2, [4]; split; [reflexivity|]; split; [reflexivity|repeat constructor; lia]|].
    exists 2, 3, [4], [4]. do 2 (split; [reflexivity|]). split.
    { split; [reflexivity|]. intros [|j] Hj; [|cbn in Hj; lia]. cbn [nth w_kernel w_stride w_padding w_dilation ex33_win].
      split; [lia|]. intros o Ho. unfold window_fits. lia. }
    do 2 (split; [lia|]). split; [repeat constructor; lia|]. intros b' c' o Ho. reflexivity.
  - split; [now left|]. discriminate.
  - split; [|split].
    + intros j i v Hv. unfold ex33_weight. apply index_in_spec in Hv; [rewrite Hv|part_ok_tac]. apply teq_refl.
    + intros j v Hv. unfold ex33_bias. apply index_in_spec in Hv; [rewrite Hv|part_ok_tac]. apply teq_refl.
    + intros v Hv. cbn in Hv. decompose [or] Hv; subst; try contradiction; split; vm_compute; repeat constructor; discriminate.
  - split; [reflexivity|]. intros idx v Hv. unfold ex33_in. apply index_in_spec in Hv; [rewrite Hv|part_ok_tac]. apply teq_refl.
  - intros v _ Hn. unfold ex33_in. apply index_in_none in Hn. rewrite Hn. split; [repeat constructor; lia|discriminate].
  - vm_compute. repeat split; reflexivity.
Qed.

Print Assumptions C33_channel_conv_partial.
Print Assumptions C33_groups_refuted.
Print Assumptions C33_single_worker_refuted.
