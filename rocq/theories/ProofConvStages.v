(** The convolutions of a network. *)

From Verif Require Import Prelude ModelSlicing ModelDecomposition ModelPartition SpecIndex SpecLayout SpecPartition ProofSlicing ProofDecomposition
  ProofPartition Ring Tensor Blocks ModelCollectives ModelBuffer P2P Rounds ModelRepartition PropRepartition ModelHaloMixin ProofHaloMixin ModelHaloExchange
  PropHaloMixin PropHaloExchange ModelFeatureLayer SpecFeature PropFeatureLayer PropFeatureConv ModelFeatureGrad SpecFeatureGrad PropFeatureGrad PropConvGrad
  ModelUtilities PropUtilities ModelConv ProofConv PropConv PropConvChannel PropConvGeneral
  ModelChannelGrad PropChannelGrad ModelGeneralGrad PropGeneralGrad ModelTraining SpecTraining ProofTraining ProofStages ProofWindows.

(** * Distributed channels *)

(** Where the parameters are. *)
Definition conv_homes (Pw : part) (co ci : Z) (w : window) (cin cout groups : Z) (use_bias : bool) : list home :=
  let nk := length (w_kernel w) in
  mkhome (fun v idx => exists j i, idx = j :: i :: repeat 0 nk /\ worker_at Pw idx v)
         (balanced (cout :: cin / groups :: w_kernel w) (co :: ci :: repeat 1 nk)) ::
  (if use_bias then [mkhome (fun v idx => exists j, idx = [j] /\ worker_at Pw (j :: 0 :: repeat 0 nk) v) (balanced [cout] [co])] else []).

(** The sizes of a convolution of inputs (b, cin, xs) to outputs (b, cout, ys). *)
Definition conv_sizes (Px Py Pw : part) (co ci : Z) (S : list Z) (w : window) (groups cin cout b : Z) (xs ys : list Z) : Prop :=
  conv_partitions Px Py Pw co ci S /\ length S = length (w_kernel w) /\ window_ok (length (w_kernel w)) w /\
  co <= cout /\ ci <= cin /\ 0 < groups /\ (groups | cout) /\ (groups | cin) /\
  length xs = length (w_kernel w) /\ nonneg_shape xs /\ counts xs w ys /\ 0 < b /\ Forall (fun n => 0 < n) ys /\
  plain groups Px Py Pw.

Lemma conv_has_bias {R : CRing} use_bias (ps : list (tensor R)) : has_bias (bias_opt use_bias ps) = use_bias.
Proof. now destruct use_bias. Qed.

Section Conv.
  Context {R : CRing}.
  Variables (world : list Z) (Px Py Pw : part) (co ci : Z) (S : list Z) (w : window) (groups cin cout b : Z) (xs ys : list Z) (use_bias : bool).
  Hypothesis HC : conv_sizes Px Py Pw co ci S w groups cin cout b xs ys.
  Hypothesis Hin : forall v, In v (p_ranks Px) \/ In v (p_ranks Py) \/ In v (p_ranks Pw) -> In v world.

  Lemma sizes_parts : conv_partitions Px Py Pw co ci S. Proof. exact (proj1 HC). Qed.

  Lemma kernel_nonneg : nonneg_shape (w_kernel w).
  Proof. destruct HC as (_ & _ & Hw & _). destruct Hw as (_ & _ & _ & _ & Hw & _). refine (Forall_impl _ _ Hw). cbn. lia. Qed.

  Lemma weight_layout : layout_shape (balanced (cout :: cin / groups :: w_kernel w) (co :: ci :: repeat 1 (length (w_kernel w)))) = cout :: cin / groups :: w_kernel w.
  Proof.
    destruct HC as (_ & HS & Hw & Hco & Hci & Hg & _). destruct (c_pos _ _ _ _ _ _ sizes_parts) as (P1 & P2 & _). apply balanced_shape.
    - constructor; [lia|]. constructor; [lia|]. apply Forall_forall. intros z Hz. apply repeat_spec in Hz. lia.
    - constructor; [lia|]. constructor; [apply Z.div_pos; lia|]. apply kernel_nonneg.
    - cbn. now rewrite repeat_length.
  Qed.

  Lemma bias_layout : layout_shape (balanced [cout] [co]) = [cout].
  Proof. destruct HC as (_ & _ & _ & Hco & _). destruct (c_pos _ _ _ _ _ _ sizes_parts) as (P1 & _). apply balanced_shape; repeat constructor; lia. Qed.

  Lemma conv_out_layout : layout_shape (balanced (b :: cout :: ys) (p_shape Py)) = b :: cout :: ys.
  Proof.
    destruct HC as (_ & HS & _ & Hco & _ & _ & _ & _ & Hl & _ & Hc & Hb & Hy & _). destruct (c_pos _ _ _ _ _ _ sizes_parts) as (P1 & _). apply balanced_shape.
    - apply (c_py _ _ _ _ _ _ sizes_parts).
    - constructor; [lia|]. constructor; [lia|]. refine (Forall_impl _ _ Hy). cbn. lia.
    - rewrite (c_sy _ _ _ _ _ _ sizes_parts). cbn. rewrite (proj1 Hc), HS, Hl. reflexivity.
  Qed.

  Section Held.
    Variables (Th : list (@slots R)) (th : Z -> list (@slots R)).
    Hypothesis HT : params_held world (conv_homes Pw co ci w cin cout groups use_bias) Th th.
    Let ps := map value_of Th.

    Lemma conv_weight_shape : tshape (weight_of ps) = cout :: cin / groups :: w_kernel w.
    Proof. unfold weight_of, ps. rewrite (param_shape _ _ _ _ HT) by (cbn; lia). cbn [conv_homes nth h_layout]. apply weight_layout. Qed.

    Lemma conv_bias_shape : match bias_opt use_bias ps with Some v => tshape v = [cout] | None => True end.
    Proof.
      unfold bias_opt. destruct use_bias eqn:Eu; [|exact I]. unfold bias_of, ps.
      rewrite (param_shape _ _ _ _ HT) by (cbn; lia). cbn [conv_homes nth h_layout]. apply bias_layout.
    Qed.

    Lemma conv_held : conv_parameters_held Pw co ci w cout (weight_of ps) (bias_opt use_bias ps) (param 0 th) (param 1 th).
    Proof.
      assert (Hi : forall idx v, worker_at Pw idx v -> In v world) by (intros idx v Hv; apply Hin; right; right; eapply worker_at_In; eauto).
      split; [|split].
      - intros j i v Hv. rewrite conv_weight_shape.
        apply (param_block _ _ _ _ HT 0 v); [cbn; lia|eapply Hi; eauto|]. cbn. now exists j, i.
      - unfold bias_opt. destruct use_bias eqn:Eu; [|exact I]. intros j v Hv.
        apply (param_block _ _ _ _ HT 1 v [j]); [cbn; lia|eapply Hi; eauto|]. exists j. now split.
      - intros v Hv. split; eapply param_nonneg; eauto.
    Qed.

    Lemma conv_seq X : tshape X = b :: cin :: xs ->
      conv_layer Px Py Pw co ci S w groups cin cout (weight_of ps) (bias_opt use_bias ps) X (q_forward (seq_conv w cout groups use_bias ys) ps X).
    Proof.
      intros EX. destruct HC as (_ & HS & Hw & Hco & Hci & Hg & Hgo & Hgi & Hl & Hn & Hc & Hb & Hy & _).
      split; [exact sizes_parts|]. do 7 (split; [assumption|]). split; [apply conv_weight_shape|]. split; [apply conv_bias_shape|]. split; [exists b, xs; auto|].
      cbn [q_forward seq_conv]. destruct (c_pos _ _ _ _ _ _ sizes_parts) as (_ & P2 & _). apply (slide_sequential _ _ _ _ _ _ b cin xs); auto. lia.
    Qed.
  End Held.

  Lemma conv_deliver (F : Z -> result (tensor R)) Y x :
    tshape Y = b :: cout :: ys ->
    (forall v, In v world -> ~ In v (p_ranks Px) -> nonneg_shape (tshape (x v)) /\ tshape (x v) <> []) ->
    conv_delivers Px Py Pw Y x F ->
    (exists y, returns world F y) /\ forall y, returns world F y -> held world (mkplace Py (balanced (b :: cout :: ys) (p_shape Py))) Y y.
  Proof.
    intros EY HO (D1 & D2 & D3). apply deliver; auto.
    - apply (c_py _ _ _ _ _ _ sizes_parts).
    - rewrite conv_out_layout. exact EY.
    - intros idx v Hv. destruct (D1 idx v Hv) as (t & E & T). exists t. rewrite EY in T. now split.
    - intros v Hv Hn. destruct (in_dec Z.eq_dec v (p_ranks Px)) as [Hx|Hx].
      + destruct (D2 v (or_introl Hx) Hn) as (t & n & E & Et & Hn'). exists t. rewrite Et. split; [exact E|now apply empty_ok].
      + destruct (in_dec Z.eq_dec v (p_ranks Pw)) as [Hw|Hw].
        * destruct (D2 v (or_intror Hw) Hn) as (t & n & E & Et & Hn'). exists t. rewrite Et. split; [exact E|now apply empty_ok].
        * exists (x v). split; [now apply D3|now apply HO].
  Qed.

  Lemma grad_deliver L X dY dy ps (dx dweight : Z -> result (tensor R)) dbias :
    tshape X = layout_shape L -> tshape (weight_of ps) = cout :: cin / groups :: w_kernel w -> nth 1 (tshape X) 0 = cin ->
    (forall v, In v world -> ~ In v (p_ranks Py) -> nonneg_shape (tshape (dy v)) /\ tshape (dy v) <> []) ->
    conv_gradients_delivered Px Py Pw co ci L w groups cout (weight_of ps) (bias_opt use_bias ps) X dY dy dx dweight dbias ->
    let q := seq_conv w cout groups use_bias ys in
    (exists y, returns world dx y) /\
    (forall y, returns world dx y -> held world (mkplace Px L) (q_back q ps X dY) y) /\
    grads_held world (conv_homes Pw co ci w cin cout groups use_bias) (q_grads q ps X dY) (fun v => [got (dweight v); got_opt (dbias v)]).
  Proof.
    intros EX EW Ec HO (D1 & D2 & D3 & _ & D4 & D5) q.
    destruct (deliver world dx Px L (q_back q ps X dY)) as [A1 A2]; auto.
    - apply (c_px _ _ _ _ _ _ sizes_parts).
    - intros v Hv Hn. destruct (in_dec Z.eq_dec v (p_ranks Pw)) as [Hw|Hw].
      + destruct (D4 v (or_introl Hw) Hn) as (t & n & E & Et & Hn'). exists t. rewrite Et. split; [exact E|now apply empty_ok].
      + destruct (in_dec Z.eq_dec v (p_ranks Py)) as [Hy|Hy].
        * destruct (D4 v (or_intror Hy) Hn) as (t & n & E & Et & Hn'). exists t. rewrite Et. split; [exact E|now apply empty_ok].
        * exists (dy v). split; [now apply D5|now apply HO].
    - split; [exact A1|]. split; [exact A2|].
      assert (SW : tshape (weight_gradient w cout groups X dY) = layout_shape (balanced (cout :: cin / groups :: w_kernel w) (co :: ci :: repeat 1 (length (w_kernel w))))).
      { rewrite weight_layout. cbn [weight_gradient tshape]. now rewrite Ec. }
      assert (GW : forall v idx, In v world -> (exists j i, idx = j :: i :: repeat 0 (length (w_kernel w)) /\ worker_at Pw idx v) ->
         exists t, got (dweight v) = Some t /\
           teq t (block (balanced (cout :: cin / groups :: w_kernel w) (co :: ci :: repeat 1 (length (w_kernel w)))) idx (weight_gradient w cout groups X dY))).
      { intros v idx _ (j & i & -> & Hv). destruct (D2 j i v Hv) as (t & E & T). exists t. rewrite E. rewrite EW in T. now split. }
      cbn [q q_grads seq_conv]. unfold conv_homes, bias_opt in *. destruct use_bias eqn:Eu.
      + apply grads_two; cbn [h_at h_layout nth]; auto.
        * rewrite bias_layout. reflexivity.
        * intros v idx _ (j & -> & Hv). destruct (D3 j v Hv) as (t & E & T); [discriminate|]. exists t. rewrite E. now split.
      + apply grads_one; cbn [h_at h_layout nth]; auto.
  Qed.
End Conv.

Section Channel.
  Context {R : CRing}.
  Variables (world : list Z) (Px Py Pw : part) (co ci : Z) (w : window) (groups cin cout b : Z) (xs ys : list Z) (use_bias : bool).
  Variables (dt dt' : Z -> Z) (rg rg' : Z -> bool).
  Hypothesis HC : conv_sizes Px Py Pw co ci (repeat 1 (length (w_kernel w))) w groups cin cout b xs ys.
  Hypothesis Hin : forall v, In v (p_ranks Px) \/ In v (p_ranks Py) \/ In v (p_ranks Pw) -> In v world.

  Lemma channel_sound : sound (R := R) world (mkplace Px (balanced (b :: cin :: xs) (p_shape Px)))
    (YChannelConv Px Py Pw w groups use_bias dt dt' rg rg') (seq_conv w cout groups use_bias ys)
    (conv_homes Pw co ci w cin cout groups use_bias) (mkplace Py (balanced (b :: cout :: ys) (p_shape Py))).
  Proof.
    intros Th th X x HT [HX HO] ps. cbn [pl_part pl_layout] in *.
    pose proof HC as (HP & HS & Hw & Hco & Hci & Hg & Hgo & Hgi & Hl & Hn & Hc & Hb & Hy & Hpl).
    destruct (c_pos _ _ _ _ _ _ HP) as (P1 & P2 & _).
    assert (EL : layout_shape (balanced (b :: cin :: xs) (p_shape Px)) = b :: cin :: xs).
    { apply balanced_shape; [apply (c_px _ _ _ _ _ _ HP)|constructor; [lia|constructor; [lia|auto]]|].
      rewrite (c_sx _ _ _ _ _ _ HP). cbn. rewrite repeat_length. now rewrite Hl. }
    assert (EX : tshape X = b :: cin :: xs) by (rewrite (proj1 HX); exact EL).
    pose proof (conv_seq world Px Py Pw co ci _ w groups cin cout b xs ys use_bias HC Hin Th th HT X EX) as HQ.
    pose proof (conv_held world Px Py Pw co ci _ w groups cin cout b xs ys use_bias HC Hin Th th HT) as HH.
    assert (EY : tshape (q_forward (seq_conv w cout groups use_bias ys) ps X) = b :: cout :: ys) by (cbn; rewrite EX; reflexivity).
    fold ps in HQ, HH. set (Y := q_forward (seq_conv w cout groups use_bias ys) ps X) in *.
    assert (HX' : holds_blocks Px (balanced (tshape X) (p_shape Px)) X x) by (rewrite EX; exact HX).
    assert (Hpass : others_pass Px Py Pw x) by (intros v Hv Hn'; apply HO; auto; apply Hin; tauto).
    destruct (C33_channel_proof R Px Py Pw co ci w groups cin cout (weight_of ps) (bias_opt use_bias ps) X Y (param 0 th) (param 1 th) x dt dt' rg rg' HQ Hpl HH HX' Hpass)
      as [_ D]. rewrite conv_has_bias in D.
    destruct (conv_deliver world Px Py Pw co ci _ w groups cin cout b xs ys HC Hin _ Y x EY HO D) as [[y Hy'] Hd].
    split; [exists x, y; exact Hy'|]. intros saved out HF. split; [now apply Hd|].
    intros dY dy [HY HOY]. cbn [pl_part pl_layout] in *.
    assert (EdY : tshape dY = tshape Y) by (rewrite EY, (proj1 HY); eapply conv_out_layout; eauto).
    assert (HY' : holds_blocks Py (balanced (tshape Y) (p_shape Py)) dY dy) by (rewrite EY; exact HY).
    assert (HpassY : others_pass Py Px Pw dy) by (intros v Hv Hn'; apply HOY; auto; apply Hin; tauto).
    pose proof (C54_proof R Px Py Pw co ci w groups cin cout (weight_of ps) (bias_opt use_bias ps) X Y dY (param 0 th) (param 1 th) x dy dt dt' rg rg'
      HQ Hpl HH HX' Hpass EdY HY' HpassY) as G. rewrite conv_has_bias, EX in G.
    assert (EW : tshape (weight_of ps) = cout :: cin / groups :: w_kernel w) by (eapply conv_weight_shape; eauto).
    destruct (grad_deliver world Px Py Pw co ci _ w groups cin cout b xs ys use_bias HC Hin (balanced (b :: cin :: xs) (p_shape Px)) X dY dy ps _ _ _
      (proj1 HX) EW (f_equal (fun s => nth 1 s 0) EX) HOY G) as ((dx & Hdx) & B1 & B2).
    split; [exists dx; eexists; split; [exact Hdx|reflexivity]|].
    intros dx' ga [HR ->]. split; [now apply B1|exact B2].
  Qed.
End Channel.

Section General.
  Context {R : CRing}.
  Variables (world : list Z) (Px Py Pw : part) (co ci : Z) (S : list Z) (L : layout) (w : window) (groups cin cout b : Z) (xs ys : list Z) (use_bias : bool).
  Variables (dt dt' dtw dtb : Z -> Z) (rg rg' rgw rgb : Z -> bool).
  Hypothesis HC : conv_sizes Px Py Pw co ci S w groups cin cout b xs ys.
  Hypothesis Hin : forall v, In v (p_ranks Px) \/ In v (p_ranks Py) \/ In v (p_ranks Pw) -> In v world.
  Hypothesis HG : feature_given world Px L w.
  Hypothesis EL : layout_shape L = b :: cin :: xs.
  Hypothesis Hwi : (1 < length (p_ranks Pw))%nat -> within L w (b :: cin :: ys).

  Lemma general_single weight bias_of shape x exchanged exchanged' v : length (p_ranks Pw) = 1%nat ->
    general_conv_forward (R := R) Px Py Pw w groups use_bias dt dt' dtw dtb rg rg' rgw rgb weight bias_of shape x exchanged v =
    general_conv_forward Px Py Pw w groups use_bias dt dt' dtw dtb rg rg' rgw rgb weight bias_of shape x exchanged' v.
  Proof.
    intros E1. destruct HC as (HP & _). assert (E2 : plain groups Px Py Pw) by apply HC. destruct E2 as [_ E2]. destruct (E2 E1) as [E3 E4].
    unfold general_conv_forward. destruct (inactive Px Py Pw v) eqn:Ei; [reflexivity|].
    assert (Ha : is_active (p_ranks Pw) v = true).
    { destruct (is_active (p_ranks Pw) v) eqn:Ea; [reflexivity|]. unfold inactive in Ei. rewrite E3, E4, Ea in Ei. discriminate. }
    rewrite (c_recast_x Px Py Pw co ci S HP GeneralConv v), (c_recast_y Px Py Pw co ci S HP GeneralConv v) by discriminate. cbn [rbind].
    unfold serial. rewrite Ha, E1. cbn [Nat.eqb andb]. reflexivity.
  Qed.

  Lemma general_sound : sound (R := R) world (mkplace Px L)
    (YGeneralConv Px Py Pw w groups use_bias dt dt' dtw dtb rg rg' rgw rgb) (seq_conv w cout groups use_bias ys)
    (conv_homes Pw co ci w cin cout groups use_bias) (mkplace Py (balanced (b :: cout :: ys) (p_shape Py))).
  Proof.
    intros Th th X x HT [HX HO] ps. cbn [pl_part pl_layout] in *.
    pose proof HC as (HP & HS & Hw & Hco & Hci & Hg & Hgo & Hgi & Hl & Hn & Hc & Hb & Hy & Hpl).
    destruct (c_pos _ _ _ _ _ _ HP) as (P1 & P2 & _).
    assert (EX : tshape X = b :: cin :: xs) by (rewrite (proj1 HX); exact EL).
    pose proof (conv_seq world Px Py Pw co ci _ w groups cin cout b xs ys use_bias HC Hin Th th HT X EX) as HQ.
    pose proof (conv_held world Px Py Pw co ci _ w groups cin cout b xs ys use_bias HC Hin Th th HT) as HH.
    assert (EY : tshape (q_forward (seq_conv w cout groups use_bias ys) ps X) = b :: cout :: ys) by (cbn; rewrite EX; reflexivity).
    fold ps in HQ, HH. set (Y := q_forward (seq_conv w cout groups use_bias ys) ps X) in *.
    assert (Hpass : others_pass Px Py Pw x) by (intros v Hv Hn'; apply HO; auto; apply Hin; tauto).
    assert (Hwi' : (1 < length (p_ranks Pw))%nat -> within L w (out_counts X Y)) by (unfold out_counts; rewrite EX, EY; exact Hwi).
    destruct (C33_general_proof R world Px Py Pw co ci S L w groups cin cout (weight_of ps) (bias_opt use_bias ps) X Y (param 0 th) (param 1 th) x
      dt dt' dtw dtb rg rg' rgw rgb HQ Hpl HH HG HX Hpass Hwi') as (_ & Hready & D). rewrite conv_has_bias in D.
    assert (N1 : length (p_ranks Pw) = 1%nat \/ (1 < length (p_ranks Pw))%nat).
    { destruct (c_pw _ _ _ _ _ _ HP) as (_ & _ & Hp & E). pose proof (zprod_pos _ Hp). lia. }
    set (F exchanged := general_conv_forward Px Py Pw w groups use_bias dt dt' dtw dtb rg rg' rgw rgb (param 0 th) (param 1 th) (fun v => tshape (x v)) x exchanged).
    assert (Fd : forall saved, ((1 < length (p_ranks Pw))%nat -> halo_forward world Px w rzero x saved) ->
      (exists y, returns world (F saved) y) /\
      forall y, returns world (F saved) y -> held world (mkplace Py (balanced (b :: cout :: ys) (p_shape Py))) Y y).
    { intros saved Hs. apply (conv_deliver world Px Py Pw co ci _ w groups cin cout b xs ys HC Hin _ Y x EY HO).
      destruct N1 as [N1|N1].
      - destruct (halo_forward_exists world Px w rzero x Hready) as [s (_ & pre & init & eager & g & Hpre & Hg' & ->)].
        specialize (D pre init eager g Hpre Hg').
        assert (E : forall v, F saved v = F (halo_result g) v) by (intros v; now apply general_single).
        destruct D as (D1 & D2 & D3). split; [|split].
        + intros idx v Hv. rewrite E. now apply D1.
        + intros v Hv Hv'. rewrite E. now apply D2.
        + intros v H1 H2 H3. rewrite E. now apply D3.
      - destruct (Hs N1) as (_ & pre & init & eager & g & Hpre & Hg' & ->). exact (D pre init eager g Hpre Hg'). }
    split.
    { destruct (halo_forward_exists world Px w rzero x Hready) as [saved Hs]. destruct (Fd saved (fun _ => Hs)) as [[y Hy'] _].
      exists saved, y. split; [now intros|exact Hy']. }
    intros saved out [Hs Hout]. split; [now apply (Fd saved Hs)|].
    intros dY dy [HY HOY]. cbn [pl_part pl_layout] in *.
    assert (EdY : tshape dY = tshape Y) by (rewrite EY, (proj1 HY); eapply conv_out_layout; eauto).
    assert (HY' : holds_blocks Py (balanced (tshape Y) (p_shape Py)) dY dy) by (rewrite EY; exact HY).
    assert (HpassY : others_pass Py Px Pw dy) by (intros v Hv Hn'; apply HOY; auto; apply Hin; tauto).
    pose proof (C55_proof R world Px Py Pw co ci S L w groups cin cout (weight_of ps) (bias_opt use_bias ps) X Y dY (param 0 th) (param 1 th) x dy
      dt dt' dtw dtb rg rg' rgw rgb HQ Hpl HH HG HX Hpass Hwi' EdY HY' HpassY) as G. cbv zeta in G. rewrite conv_has_bias in G. destruct G as [G1 G2].
    set (cot := general_back_argument Px Py Pw w groups use_bias dt dt' dtw dtb rg rg' rgw rgb (param 0 th) (param 1 th) (fun v => tshape (x v)) x saved dy).
    assert (Gd : forall back, ((1 < length (p_ranks Pw))%nat -> halo_backward world Px w rzero x cot back) ->
      conv_gradients_delivered Px Py Pw co ci L w groups cout (weight_of ps) (bias_opt use_bias ps) X dY dy
        (general_conv_backward Px Py Pw w groups use_bias dt dt' dtw dtb rg rg' rgw rgb (param 0 th) (param 1 th) (fun v => tshape (x v)) x saved dy back)
        (general_weight_gradient Px Py Pw w groups use_bias dt dt' dtw dtb rg rg' rgw rgb (param 0 th) (param 1 th) (fun v => tshape (x v)) x saved dy)
        (general_bias_gradient Px Py Pw w groups use_bias dt dt' dtw dtb rg rg' rgw rgb (param 0 th) (param 1 th) (fun v => tshape (x v)) x saved dy)).
    { intros back Hbk. destruct N1 as [N1|N1]; [now apply G1|]. destruct (G2 N1) as [_ G3].
      unfold cot in Hbk. destruct (Hs N1) as (_ & pre & init & eager & g & Hpre & Hg' & ->). destruct (G3 pre init eager g Hpre Hg') as [_ G4].
      destruct (Hbk N1) as (pre' & init' & eager' & g' & Hpre' & Hg'' & ->). exact (G4 pre' init' eager' g' Hpre' Hg''). }
    assert (Gc : (1 < length (p_ranks Pw))%nat ->
       returns world (general_cotangent Px Py Pw w groups use_bias dt dt' dtw dtb rg rg' rgw rgb (param 0 th) (param 1 th) (fun v => tshape (x v)) x saved dy) cot).
    { intros N2. destruct (G2 N2) as [_ G3]. unfold cot. destruct (Hs N2) as (_ & pre & init & eager & g & Hpre & Hg' & ->).
      destruct (G3 pre init eager g Hpre Hg') as [G4 _]. intros v _. apply G4. }
    assert (Ge : forall back, ((1 < length (p_ranks Pw))%nat -> halo_backward world Px w rzero x cot back) -> _) by
      (intros back Hbk; refine (grad_deliver world Px Py Pw co ci _ w groups cin cout b xs ys use_bias HC Hin L X dY dy ps _ _ _ (proj1 HX) _ _ HOY (Gd back Hbk));
       [eapply conv_weight_shape; eauto|now rewrite EX]).
    cbv zeta in Ge. split.
    { destruct (halo_backward_exists world Px w rzero x cot Hready) as [back Hbk]. destruct (Ge back (fun _ => Hbk)) as ((dx & Hdx) & _).
      exists dx. eexists. exists back. split; [intros N2; split; [now apply Gc|exact Hbk]|]. split; [exact Hdx|reflexivity]. }
    intros dx ga (back & Hbk & HR & ->). destruct (Ge back (fun N2 => proj2 (Hbk N2))) as (_ & B1 & B2). split; [now apply B1|exact B2].
  Qed.
End General.

(** * Distributed features *)

Lemma whole_all {R : CRing} s (X : tensor R) : tshape X = s -> teq (block (whole s) (zeros s) X) X.
Proof.
  intros E. destruct (whole_block s) as [B1 B2]. split; [cbn; now rewrite B1|].
  intros i Hi. cbn [block tshape] in Hi. rewrite B1 in Hi. cbn [block tat]. rewrite B2, vadd_zeros; [reflexivity|].
  apply valid_index_length in Hi. exact Hi.
Qed.

(** The first worker has the parameters. *)
Definition feature_homes (P : part) (w : window) (cin cout groups : Z) (use_bias : bool) : list home :=
  let s := cout :: cin / groups :: w_kernel w in
  mkhome (fun v idx => v = hd 0 (p_ranks P) /\ idx = zeros s) (whole s) ::
  (if use_bias then [mkhome (fun v idx => v = hd 0 (p_ranks P) /\ idx = [0]) (whole [cout])] else []).

Section Feature.
  Context {R : CRing}.
  Variables (world : list Z) (P : part) (L : layout) (w : window) (groups cin cout b : Z) (xs ys : list Z) (use_bias : bool).
  Variables (dt : Z -> Z) (rg : Z -> bool).
  Hypothesis HG : feature_given world P L w.
  Hypothesis H1 : nth 1 (p_shape P) 0 = 1.
  Hypothesis Hco : 0 < cout.
  Hypothesis Hg : 0 < groups.
  Hypothesis Hgo : (groups | cout).
  Hypothesis Hgi : (groups | cin).
  Hypothesis EL : layout_shape L = b :: cin :: xs.
  Hypothesis Hcnt : counts xs w ys.
  Hypothesis Hb : 0 < b.
  Hypothesis Hci : 0 < cin.
  Hypothesis Hys : Forall (fun n => 0 < n) ys.
  Hypothesis Hwi : (1 < length (p_ranks P))%nat -> within L w (b :: cin :: ys).

  Let root := hd 0 (p_ranks P).

  Lemma feature_gradient_same (W W' : tensor R) shape dY :
    teq W' W -> tshape W = cout :: cin / groups :: w_kernel w -> nth 1 shape 0 = cin -> nth 1 (tshape dY) 0 = cout ->
    forall i, tat (input_gradient (conv_coefficients cout groups W') w shape dY) i = tat (input_gradient (conv_coefficients cout groups W) w shape dY) i.
  Proof.
    intros [E V] EW Es Ed i. cbn [input_gradient tat]. destruct i as [|b' [|ch q]]; try reflexivity. rewrite Es, Ed.
    apply sumf_ext. intros c Hc. apply in_zrange in Hc. apply sumf_ext. intros o _. apply sumf_ext. intros t Ht. apply in_indices in Ht.
    destruct (list_eq_dec Z.eq_dec _ q); [|reflexivity]. f_equal. unfold conv_coefficients.
    destruct (andb _ _) eqn:B; [|reflexivity]. apply andb_true_iff in B as [B1 B2]. apply Z.leb_le in B1. apply Z.ltb_lt in B2.
    apply V. rewrite E, EW. apply valid_index_cons. split; [exact Hc|]. apply valid_index_cons. split; [lia|exact Ht].
  Qed.

  Lemma conv_single weight bias_of shape x exchanged exchanged' v : length (p_ranks P) = 1%nat ->
    conv_forward (R := R) P w cout groups use_bias dt rg weight bias_of shape x exchanged v =
    conv_forward P w cout groups use_bias dt rg weight bias_of shape x exchanged' v.
  Proof. intros E. unfold conv_forward. rewrite E. cbn [Nat.eqb]. reflexivity. Qed.

  Lemma feature_sound : sound (R := R) world (mkplace P L) (YFeatureConv P w cout groups use_bias dt rg) (seq_conv w cout groups use_bias ys)
    (feature_homes P w cin cout groups use_bias) (mkplace P (balanced (b :: cout :: ys) (p_shape P))).
  Proof.
    intros Th th X x HT [HX HO] ps. cbn [pl_part pl_layout] in *.
    pose proof HG as (HN & HW & HP & _).
    assert (EX : tshape X = b :: cin :: xs) by (rewrite (proj1 HX); exact EL).
    assert (Hroot : In root world) by (apply HW, (root_in world P L w HG)).
    assert (EW : tshape (weight_of ps) = cout :: cin / groups :: w_kernel w).
    { unfold weight_of, ps. rewrite (param_shape _ _ _ _ HT) by (cbn; lia). cbn [feature_homes nth h_layout]. apply whole_shape. }
    assert (TW : teq (param 0 th root) (weight_of ps)).
    { eapply teq_trans; [apply (param_block _ _ _ _ HT 0 root (zeros (cout :: cin / groups :: w_kernel w))); [cbn; lia|exact Hroot|cbn; now split]|].
      cbn [feature_homes nth h_layout]. apply whole_all. exact EW. }
    assert (EB : use_bias = true -> tshape (bias_of ps) = [cout] /\ teq (param 1 th root) (bias_of ps)).
    { intros Eu. assert (EB : tshape (bias_of ps) = [cout]).
      { unfold bias_of, ps. rewrite (param_shape _ _ _ _ HT) by (cbn; rewrite Eu; cbn; lia). unfold feature_homes. rewrite Eu. cbn [nth h_layout]. apply whole_shape. }
      split; [exact EB|].
      eapply teq_trans; [apply (param_block _ _ _ _ HT 1 root [0]); [cbn; rewrite Eu; cbn; lia|exact Hroot|unfold feature_homes; rewrite Eu; cbn; now split]|].
      unfold feature_homes. rewrite Eu. cbn [nth h_layout]. apply (whole_all [cout]). exact EB. }
    set (Y := q_forward (seq_conv w cout groups use_bias ys) ps X).
    assert (EY : tshape Y = b :: cout :: ys) by (cbn; rewrite EX; reflexivity).
    assert (HPar : conv_parameters P w (nth 1 (tshape X) 0) cout groups use_bias (param 0 th) (param 1 th)).
    { rewrite EX. cbn [nth]. do 4 (split; [assumption|]). split; [fold root; rewrite (proj1 TW); exact EW|].
      split; [intros Eu; fold root; destruct (EB Eu) as [E1 [E2 _]]; now rewrite E2|].
      intros v Hv. split; eapply param_nonneg; eauto. }
    assert (HS : is_sequential (root_conv P w cout groups use_bias (param 0 th) (param 1 th)) (fun _ => cout) rzero w X Y).
    { pose proof (slide_sequential (conv_kernel w cout groups (weight_of ps) (bias_opt use_bias ps)) (fun _ => cout) rzero w ys X b cin xs EX Hcnt Hb Hci Hys) as HS.
      destruct HS as (b0 & c0 & xs0 & ys0 & Q1 & Q2 & Q3 & Q4 & Q5 & Q6 & Q7).
      exists b0, c0, xs0, ys0. do 6 (split; [assumption|]). intros b' c' o Hv. etransitivity; [apply (Q7 b' c' o Hv)|].
      assert (Ec : c0 = cin) by (rewrite EX in Q1; injection Q1; congruence). rewrite Ec. symmetry. unfold root_conv. fold root.
      apply conv_teq; auto.
      - unfold bias_opt. destruct use_bias; [|exact I]. destruct (EB eq_refl) as [E1 E2]. now split.
      - rewrite EY in Hv. apply valid_index_cons in Hv as [_ Hv]. apply valid_index_cons in Hv as [Hv _]. exact Hv. }
    assert (Hwi' : (1 < length (p_ranks P))%nat -> within L w (out_counts X Y)) by (unfold out_counts; rewrite EX, EY; exact Hwi).
    assert (Hsh : layout_shape (balanced (b :: cout :: ys) (p_shape P)) = b :: cout :: ys).
    { apply (out_shape world P L w b cin xs ys (fun _ => cout)); auto. lia. }
    destruct (C30_conv_proof R world P L w cout groups use_bias dt rg rg (param 0 th) (param 1 th) X Y x HG H1 HPar HS HX Hwi') as (Hready & D).
    assert (N1 : length (p_ranks P) = 1%nat \/ (1 < length (p_ranks P))%nat).
    { destruct HP as (_ & _ & Hp & E). pose proof (zprod_pos _ Hp). lia. }
    set (F exchanged := conv_forward P w cout groups use_bias dt rg (param 0 th) (param 1 th) (fun v => tshape (x v)) x exchanged).
    assert (Fd : forall saved, ((1 < length (p_ranks P))%nat -> halo_forward world P w rzero x saved) ->
      (exists y, returns world (F saved) y) /\
      forall y, returns world (F saved) y -> held world (mkplace P (balanced (b :: cout :: ys) (p_shape P))) Y y).
    { intros saved Hs.
      assert (E : exists pre init eager g, same_calls P (halo_argument P w rzero (fun v => tshape (x v)) x) pre /\
                ends world (halo_layer P w rzero x (pre ++ [HForward (halo_argument P w rzero (fun v => tshape (x v)) x)])) init eager g /\
                forall v, F saved v = F (halo_result g) v).
      { destruct N1 as [N1|N1].
        - destruct (halo_forward_exists world P w rzero x Hready) as [s (_ & pre & init & eager & g & Hpre & Hg' & ->)].
          exists pre, init, eager, g. split; [exact Hpre|]. split; [exact Hg'|]. intros v. now apply conv_single.
        - destruct (Hs N1) as (_ & pre & init & eager & g & Hpre & Hg' & ->). exists pre, init, eager, g. now split. }
      destruct E as (pre & init & eager & g & Hpre & Hg' & E). destruct (D pre init eager g Hpre Hg') as [D1 D2].
      apply deliver; auto; [rewrite Hsh; exact EY| |].
      - intros idx v Hv. rewrite E, <- EY. now apply D1.
      - intros v Hv Hn. exists (x v). rewrite E. split; [now apply D2|now apply HO]. }
    split.
    { destruct (halo_forward_exists world P w rzero x Hready) as [saved Hs]. destruct (Fd saved (fun _ => Hs)) as [[y Hy'] _].
      exists saved, y. split; [now intros|exact Hy']. }
    intros saved out [Hs Hout]. split; [now apply (Fd saved Hs)|].
    intros dY dy [HY HOY]. cbn [pl_part pl_layout] in *.
    assert (EdY : tshape dY = tshape Y) by (rewrite EY, (proj1 HY); exact Hsh).
    assert (HY' : holds_blocks P (balanced (tshape Y) (p_shape P)) dY dy) by (rewrite EY; exact HY).
    destruct (C53_proof R world P L w cout groups use_bias dt rg (param 0 th) (param 1 th) X Y dY x dy HG H1 HPar HS HX Hwi' EdY HY') as [G1 G2].
    set (cot := conv_back_argument P w cout groups dt rg (fun v => tshape (x v)) (param 0 th)
                  (fun v => tshape (halo_argument P w rzero (fun v => tshape (x v)) x v)) dy) in *.
    assert (Gd : forall back, ((1 < length (p_ranks P))%nat -> halo_backward world P w rzero x cot back) ->
      conv_gradients_ok P L w cout groups use_bias dt rg (param 0 th) (param 1 th) X dY x dy saved back).
    { intros back Hbk. destruct N1 as [N1|N1]; [now apply G1|]. destruct (G2 N1) as (_ & _ & G3).
      destruct (Hs N1) as (_ & pre & init & eager & g & Hpre & Hg' & ->). destruct (Hbk N1) as (pre' & init' & eager' & g' & Hpre' & Hg'' & ->).
      exact (G3 pre pre' init init' eager eager' g g' Hpre Hpre' Hg' Hg''). }
    assert (Ge : forall back, ((1 < length (p_ranks P))%nat -> halo_backward world P w rzero x cot back) ->
      (exists y, returns world (conv_gradient P w cout groups (fun v => tshape (x v)) (param 0 th) dy back) y) /\
      forall y, returns world (conv_gradient P w cout groups (fun v => tshape (x v)) (param 0 th) dy back) y ->
        held world (mkplace P L) (q_back (seq_conv w cout groups use_bias ys) ps X dY) y).
    { intros back Hbk. destruct (Gd back Hbk) as (B1 & _ & _ & B4). apply deliver; auto; [exact (proj1 HX)| |].
      - intros idx v Hv. destruct (B1 idx v Hv) as (t & E & T). exists t. split; [exact E|]. eapply teq_trans; [exact T|].
        split; [reflexivity|]. intros i _. cbn [block tat q_back seq_conv]. fold root. apply feature_gradient_same; auto.
        + now rewrite EX.
        + now rewrite EdY, EY.
      - intros v Hv Hn. exists (dy v). split; [now apply B4|now apply HOY]. }
    split.
    { destruct (halo_backward_exists world P w rzero x cot Hready) as [back Hbk]. destruct (Ge back (fun _ => Hbk)) as ((dx & Hdx) & _).
      exists dx. eexists. exists back. split; [intros N2; split; [exact (proj1 (G2 N2))|exact Hbk]|]. split; [exact Hdx|reflexivity]. }
    intros dx ga (back & Hbk & HR & ->). split; [now apply (Ge back (fun N2 => proj2 (Hbk N2)))|].
    destruct (Gd back (fun N2 => proj2 (Hbk N2))) as (_ & B2 & B3 & _).
    assert (SW : tshape (weight_gradient w cout groups X dY) = layout_shape (whole (cout :: cin / groups :: w_kernel w))).
    { rewrite whole_shape. cbn [weight_gradient tshape]. now rewrite EX. }
    assert (GW : forall v idx, In v world -> v = root /\ idx = zeros (cout :: cin / groups :: w_kernel w) ->
      exists t, got (conv_weight_gradient P w cout groups dt rg (fun v => tshape (x v)) (param 0 th) x saved dy v) = Some t /\
        teq t (block (whole (cout :: cin / groups :: w_kernel w)) idx (weight_gradient w cout groups X dY))).
    { intros v idx _ [-> ->]. destruct B2 as (t & E & T). exists t. unfold root. rewrite E. split; [reflexivity|]. eapply teq_trans; [exact T|].
      apply teq_sym, whole_all. rewrite SW. apply whole_shape. }
    cbn [q_grads seq_conv]. unfold feature_homes. fold root. destruct use_bias eqn:Eu.
    - apply grads_two; cbn [h_at h_layout nth]; auto; [rewrite whole_shape; reflexivity|].
      intros v idx _ [-> ->]. destruct (B3 eq_refl) as (t & E & T). exists t. unfold root. rewrite E. split; [reflexivity|]. eapply teq_trans; [exact T|].
      apply teq_sym, (whole_all [cout]). reflexivity.
    - apply grads_one; cbn [h_at h_layout nth]; auto.
  Qed.
End Feature.
