(** Padding modes of the convolutions: C59. *)

From Verif Require Import Prelude SpecIndex SpecLayout SpecPartition SpecHalo ModelSlicing ModelDecomposition ModelPartition ProofSlicing
  ProofDecomposition ProofPartition Ring Tensor ModelCollectives ProofCollectives PropCollectives PropExchange Blocks ModelUtilities PropUtilities
  P2P Rounds ModelRepartition ProofTransfer ProofRepartition PropRepartition ModelHaloMixin ProofHaloMixin PropHaloMixin ModelHaloExchange
  PropHaloExchange ModelFeatureLayer SpecFeature ProofFeatureLayer PropFeatureLayer PropFeatureConv PropFeatureCommon ModelLinear ProofWork PropLinear ModelConv
  ProofConv ProofConvParts PropConv PropConvChannel PropConvGeneral ModelPaddingMode SpecPaddingMode ProofPaddingMode.

(** ** Features distributed *)

(** A worker of [P] at the border of a padded dimension or with a neighbour's
    data to receive. *)
Definition must_pad (P : part) (w : window) (shape : Z -> list Z) (idx : list Z) (v : Z) : Prop :=
  padded_border (p_shape P) idx (w_padding w) \/
  exists a b, In (a, b) (u_recv (halo_plan P w shape v)) /\ (a, b) <> (0, 0).

(** In a mode other than 'zeros' every worker that has to pad raises, whatever the
    others do; and if the layer ends without an error, the outputs are those of the
    sequential layer in that mode.  With 'zeros' or on a single worker it does. *)
Definition C59_feature_statement (extra : layout -> window -> list Z -> Prop) : Prop :=
  forall (R : CRing) (m : pad_mode) (world : list Z) (P : part) (L : layout) (w : window) (cout groups : Z) (use_bias : bool)
    (dt : Z -> Z) (rg : Z -> bool) (weight bias : Z -> tensor R) (G Y : tensor R) (x : Z -> tensor R),
    feature_given world P L w -> (1 <= length (w_kernel w) <= 3)%nat -> nth 1 (p_shape P) 0 = 1 ->
    conv_parameters P w (nth 1 (tshape G) 0) cout groups use_bias weight bias ->
    is_sequential_mode m (root_conv P w cout groups use_bias weight bias) (fun _ => cout) w G Y ->
    holds_blocks P L G x -> ((1 < length (p_ranks P))%nat -> extra L w (out_counts G Y)) ->
    let shape v := tshape (x v) in
    let arg := halo_argument_mode m P w shape x in
    let plan := halo_plan P w shape in
    let layer := history_rounds P (fun v => tshape (arg v)) (fun v => u_recv (plan v)) (fun v => u_send (plan v)) in
    let output := conv_forward_mode m P w cout groups use_bias dt rg weight bias shape x in
    (m <> PadZeros -> (1 < length (p_ranks P))%nat ->
       forall exchanged idx v, worker_at P idx v -> must_pad P w shape idx v -> output exchanged v = Raise ErrTorch) /\
    forall pre init eager g, same_calls P arg pre -> ends world (layer (pre ++ [HForward arg])) init eager g ->
      m = PadZeros \/ length (p_ranks P) = 1%nat \/ (forall v, In v (p_ranks P) -> exists t, output (halo_result g) v = Ok t) ->
      (forall idx v, worker_at P idx v ->
         exists t, output (halo_result g) v = Ok t /\ teq t (block (balanced (tshape Y) (p_shape P)) idx Y)) /\
      (forall v, In v world -> ~ In v (p_ranks P) -> output (halo_result g) v = Ok (x v)).

Lemma mode_dec (m : pad_mode) : m = PadZeros \/ m <> PadZeros.
Proof. destruct m; auto; right; discriminate. Qed.

Lemma dims_ok n : (1 <= n <= 3)%nat -> num_dims_ok n.
Proof. unfold num_dims_ok. lia. Qed.

Section Feature.
  Context {R : CRing}.
  Variables (m : pad_mode) (world : list Z) (P : part) (L : layout) (w : window) (cout groups : Z) (use_bias : bool).
  Variables (dt : Z -> Z) (rg : Z -> bool) (weight bias : Z -> tensor R) (G Y : tensor R) (x : Z -> tensor R).
  Hypothesis HG : feature_given world P L w.
  Hypothesis HB : holds_blocks P L G x.
  Hypothesis HP : conv_parameters P w (nth 1 (tshape G) 0) cout groups use_bias weight bias.
  Let shape v := tshape (x v).
  Let output := conv_forward_mode m P w cout groups use_bias dt rg weight bias shape x.

  (** Several workers: the parameters arrive. *)
  Lemma fm_step exchanged v : In v (p_ranks P) -> (1 < length (p_ranks P))%nat ->
    output exchanged v =
    match halo_input_mode m P w shape x v with
    | Raise e => Raise e
    | Ok _ => conv_forward P w cout groups use_bias dt rg weight bias shape x exchanged v
    end.
  Proof.
    intros Hv Hl. destruct HP as (Hcout & Hgr & Hdv & Hdi & Ew & Eb & Hs).
    unfold output, conv_forward_mode, conv_forward. rewrite (proj2 (is_active_spec _ _) Hv). cbn [negb].
    destruct (Nat.eqb_spec (length (p_ranks P)) 1) as [E1|_]; [lia|].
    destruct (parameter_ok world P L w HG dt rg weight v) as (wt & Ewt & _); auto; [intros u Hu; now apply Hs|]. rewrite Ewt. cbn [rbind].
    assert (Bb : exists bt, (if use_bias then conv_parameter P dt rg bias v else Ok (bias v)) = Ok bt).
    { destruct use_bias; [|eauto]. destruct (parameter_ok world P L w HG dt rg bias v) as (bt & Ebt & _); auto; [intros u Hu; now apply Hs|eauto]. }
    destruct Bb as (bt & ->). cbn [rbind]. now destruct (halo_input_mode m P w shape x v).
  Qed.

  Lemma fm_raises exchanged idx v : m <> PadZeros -> (1 < length (p_ranks P))%nat -> worker_at P idx v -> must_pad P w shape idx v ->
    output exchanged v = Raise ErrTorch.
  Proof.
    intros Hm Hl Hv Hp. rewrite fm_step by (auto; eapply worker_at_In; eauto).
    assert (E : halo_input_mode m P w shape x v = Raise ErrTorch); [|now rewrite E].
    destruct Hp as [Hp|(a & b & Hi & Hn)].
    - exact (pm_border m world P L w G x Hm HG HB idx v Hv Hp).
    - destruct (pm_input m world P L w G x Hm HG HB idx v Hv) as [(_ & _ & _ & F)|[E _]]; [|exact E].
      exfalso. apply Hn. rewrite Forall_forall in F. exact (F _ Hi).
  Qed.

  (** If no worker raises, none pads. *)
  Lemma fm_quiet exchanged : m <> PadZeros -> (1 < length (p_ranks P))%nat ->
    (forall v, In v (p_ranks P) -> exists t, output exchanged v = Ok t) ->
    w = unpadded w /\ (forall v, halo_argument_mode m P w shape x v = halo_argument P w rzero shape x v) /\
    (forall ex v, In v (p_ranks P) -> output ex v = conv_forward P w cout groups use_bias dt rg weight bias shape x ex v).
  Proof.
    intros Hm Hl Ho.
    assert (Hq : forall v, In v (p_ranks P) -> halo_input_mode m P w shape x v <> Raise ErrTorch).
    { intros v Hv E. destruct (Ho v Hv) as [t Et]. rewrite fm_step in Et by auto. rewrite E in Et. discriminate. }
    assert (Hi : forall v, In v (p_ranks P) -> halo_input_mode m P w shape x v = Ok (x v) /\ halo_input P w rzero shape x v = Ok (x v)).
    { intros v Hv. destruct (worker_at_exists P v) as [idx Hidx]; [apply HG|auto|].
      destruct (pm_input m world P L w G x Hm HG HB idx v Hidx) as [(E1 & E2 & _)|[E _]]; [auto|]. exfalso. now apply (Hq v). }
    split; [exact (pm_quiet m world P L w G x Hm HG HB Hq)|]. split.
    - intros v. unfold halo_argument_mode, halo_argument.
      destruct (in_dec Z.eq_dec v (p_ranks P)) as [Hv|Hv].
      + destruct (Hi v Hv) as [-> ->]. reflexivity.
      + destruct (pm_inactive m P w x v Hv) as [E1 E2]. unfold shape. now rewrite E1, E2.
    - intros ex v Hv. rewrite fm_step by auto. destruct (Hi v Hv) as [-> _]. reflexivity.
  Qed.
End Feature.

Lemma C59_feature_proof : C59_feature_statement within.
Proof.
  intros R m world P L w cout groups use_bias dt rg weight bias G Y x HG Hn HC HP HS HB Hin shape arg plan layer output.
  split; [intros Hm Hl exch idx v Hv Hp; exact (fm_raises m world P L w cout groups use_bias dt rg weight bias G x HG HB HP exch idx v Hm Hl Hv Hp)|].
  intros pre init eager g Hpre Hend Hok.
  pose proof HP as (Hcout & Hgr & Hdv & Hdi & Ew & Eb & Hs).
  assert (HW : window_ok (length (w_kernel w)) w) by apply HG.
  assert (HK : kernel_local w (root_conv P w cout groups use_bias weight bias) (fun _ => cout)) by (apply conv_local; auto).
  split.
  2:{ intros v Hw Hv. unfold output, conv_forward_mode. apply is_active_false in Hv. now rewrite Hv. }
  (* the serial layer *)
  destruct (Nat.eqb_spec (length (p_ranks P)) 1) as [E1|E1].
  { intros idx v Hv. pose proof (worker_at_In _ _ _ Hv) as Hr. unfold output, conv_forward_mode.
    rewrite (proj2 (is_active_spec _ _) Hr), E1. cbn [negb Nat.eqb].
    assert (Ev : v = hd 0 (p_ranks P)).
    { destruct (p_ranks P) as [|a [|]]; try discriminate. destruct Hr as [<-|[]]. reflexivity. }
    assert (Ek : conv_kernel w cout groups (weight v) (if use_bias then Some (bias v) else None) =
                 root_conv P w cout groups use_bias weight bias) by (unfold root_conv; now rewrite <- Ev).
    rewrite Ek. clear Ek.
    pose proof HB as [EGs HB']. specialize (HB' idx v Hv).
    assert (Hones : p_shape P = repeat 1 (length L)).
    { destruct HG as (_ & _ & (_ & _ & Hp & HL) & _ & HWo & _). rewrite E1 in HL.
      rewrite <- (layout_workers_length L), HWo. clear - Hp HL. induction Hp as [|n l Hn Hp IH]; [reflexivity|].
      cbn [zprod fold_right] in HL. fold (zprod l) in HL. pose proof (zprod_pos _ Hp).
      assert (n = 1) by nia. subst n. cbn [length repeat]. f_equal. apply IH. lia. }
    assert (HSp : exists b c xs ys, tshape G = b :: c :: xs /\ tshape Y = b :: cout :: ys /\ length ys = length xs /\ 0 < b /\ 0 < c /\
                  Forall (fun n => 0 < n) ys).
    { destruct (mode_dec m) as [->|Hm].
      - destruct HS as (b & c & xs & ys & EG & EY & [Hl _] & Hb & Hc & Hys & _). exists b, c, xs, ys. auto 6.
      - destruct m; [congruence| | |]; destruct HS as (b & c & xs & ys & EG & EY & [Hl _] & Hb & Hc & Hys & _); exists b, c, xs, ys; auto 6. }
    destruct HSp as (b & c & xs & ys & EG & EY & Hl & Hb & Hc & Hys).
    assert (Ny : nonneg_shape (tshape Y) /\ length (tshape Y) = length (p_shape P)).
    { rewrite EY. split.
      - constructor; [lia|]. constructor; [lia|]. eapply Forall_impl; [|exact Hys]. cbn. lia.
      - rewrite EG in EGs. apply (f_equal (@length Z)) in EGs. rewrite layout_shape_length in EGs. cbn [length] in *.
        rewrite Hones, repeat_length. lia. }
    destruct Ny as (Ny & Ly).
    assert (PP : pos_shape (p_shape P)) by apply HG.
    assert (Hv1 : valid_index (layout_workers L) idx) by (destruct HG as (_ & _ & _ & _ & -> & _); apply Hv).
    destruct (torch_mode_serial m (root_conv P w cout groups use_bias weight bias) (fun _ => cout) w G Y (x v)) as (t & Et & Tt); auto.
    - now apply dims_ok.
    - rewrite EGs, layout_shape_length, <- layout_workers_length. destruct HG as (_ & _ & _ & _ & -> & -> & _). reflexivity.
    - eapply teq_trans; [exact HB'|]. apply single_block; auto.
      destruct HG as (_ & _ & _ & _ & -> & _). rewrite Hones. apply Forall_forall. intros z Hz. now apply repeat_spec in Hz.
    - exists t. split; [exact Et|]. eapply teq_trans; [exact Tt|]. apply teq_sym. apply single_block.
      + rewrite balanced_workers by auto. rewrite Hones. apply Forall_forall. intros z Hz. now apply repeat_spec in Hz.
      + rewrite balanced_workers by auto. apply Hv.
      + now rewrite balanced_shape by auto. }
  assert (Hl : (1 < length (p_ranks P))%nat).
  { destruct HG as (_ & _ & (_ & _ & Hp & HL) & _). pose proof (zprod_pos _ Hp). lia. }
  destruct (mode_dec m) as [->|Hm].
  - (* zeros *)
    destruct (C30_conv_proof R world P L w cout groups use_bias dt rg rg weight bias G Y x HG HC HP HS HB Hin) as [K1 K2].
    destruct (K2 pre init eager g Hpre Hend) as [K3 _]. intros idx v Hv. pose proof (worker_at_In _ _ _ Hv) as Hr.
    unfold output. rewrite (fm_step PadZeros world P L w cout groups use_bias dt rg weight bias G x HG HP) by auto.
    change (halo_input_mode PadZeros P w (fun v => tshape (x v)) x v) with (halo_input P w rzero (fun v => tshape (x v)) x v).
    destruct K1 as [K1 _]. cbv zeta in K1. rewrite K1 by (apply HG; auto). now apply K3.
  - destruct Hok as [Hok|[Hok|Hok]]; [congruence|congruence|].
    destruct (fm_quiet m world P L w cout groups use_bias dt rg weight bias G x HG HB HP (halo_result g) Hm Hl Hok) as (Q1 & Q2 & Q3).
    assert (HS' : is_sequential (root_conv P w cout groups use_bias weight bias) (fun _ => cout) rzero w G Y) by (now apply unpadded_mode with (m := m)).
    destruct (C30_conv_proof R world P L w cout groups use_bias dt rg rg weight bias G Y x HG HC HP HS' HB Hin) as [_ K2].
    specialize (K2 pre init eager g).
    assert (Hpre' : same_calls P (halo_argument P w rzero (fun v => tshape (x v)) x) pre).
    { unfold same_calls in *. eapply Forall_impl; [|exact Hpre]. cbn. intros c Hc v Hv. rewrite Hc by auto. unfold arg, shape. now rewrite Q2. }
    destruct (K2 Hpre') as [K3 _].
    { eapply ends_ext; [|exact Hend]. intros v _. apply history_ext; [|apply Q2]. unfold arg, shape. now rewrite Q2. }
    intros idx v Hv. unfold output. rewrite Q3 by (eapply worker_at_In; eauto). now apply K3.
Qed.

Theorem C59_feature_modes : C59_feature_statement within.
Proof. exact C59_feature_proof. Qed.

(** ** Channels distributed *)

(** As [conv_layer], with the sequential layer of the given mode. *)
Definition conv_layer_mode {R : CRing} (m : pad_mode) (Px Py Pw : part) (co ci : Z) (S : list Z) (w : window) (groups cin cout : Z)
    (W : tensor R) (bias : option (tensor R)) (X Y : tensor R) : Prop :=
  conv_partitions Px Py Pw co ci S /\ length S = length (w_kernel w) /\ window_ok (length (w_kernel w)) w /\
  (1 <= length (w_kernel w) <= 3)%nat /\
  co <= cout /\ ci <= cin /\ 0 < groups /\ (groups | cout) /\ (groups | cin) /\
  tshape W = cout :: cin / groups :: w_kernel w /\
  match bias with Some v => tshape v = [cout] | None => True end /\
  (exists b xs, tshape X = b :: cin :: xs /\ length xs = length (w_kernel w) /\ nonneg_shape xs) /\
  is_sequential_mode m (conv_kernel w cout groups W bias) (fun _ => cout) w X Y.

Definition C59_channel_statement (extra : Z -> part -> part -> part -> Prop) : Prop :=
  forall (R : CRing) (m : pad_mode) (Px Py Pw : part) (co ci : Z) (w : window) (groups cin cout : Z)
    (W : tensor R) (bias : option (tensor R)) (X Y : tensor R) (weight bias_of x : Z -> tensor R) dt dt' rg rg',
  conv_layer_mode m Px Py Pw co ci (repeat 1 (length (w_kernel w))) w groups cin cout W bias X Y ->
  extra groups Px Py Pw ->
  conv_parameters_held Pw co ci w cout W bias weight bias_of ->
  holds_blocks Px (balanced (tshape X) (p_shape Px)) X x -> others_pass Px Py Pw x ->
  weights_made Pw co ci w groups cin cout W /\
  conv_delivers Px Py Pw Y x (channel_conv_forward_mode m Px Py Pw w groups (has_bias bias) dt dt' rg rg' weight bias_of x).

Section Channel.
  Context {R : CRing}.
  Variables (m : pad_mode) (Px Py Pw : part) (co ci : Z) (S : list Z) (w : window) (groups cin cout : Z).
  Variables (W : tensor R) (bias : option (tensor R)) (X Y : tensor R).
  Hypothesis Hm : m <> PadZeros.
  Hypothesis HM : conv_layer_mode m Px Py Pw co ci S w groups cin cout W bias X Y.
  Hypothesis HE : plain groups Px Py Pw.
  Let nk := length (w_kernel w).
  Let w0 := unpadded w.
  Let Xp := continued_tensor m w X.

  Lemma cm_window : window_ok (length (w_kernel w)) w0.
  Proof.
    destruct HM as (_ & _ & (W1 & W2 & W3 & W4 & W5 & W6 & W7 & W8) & _). unfold w0, unpadded.
    repeat split; cbn [w_kernel w_stride w_padding w_dilation]; auto.
    - apply repeat_length.
    - apply Forall_forall. intros z Hz. apply repeat_spec in Hz. lia.
  Qed.

  Lemma cm_layer : conv_layer Px Py Pw co ci S w0 groups cin cout W bias Xp Y /\
    exists b xs, tshape X = b :: cin :: xs /\ length xs = nk /\ nonneg_shape xs /\ Forall2 (continuable m) xs (w_padding w).
  Proof.
    pose proof HM as (HP & HS & Hw & Hd & Hco & Hci & Hg & Hgo & Hgi & HW & HB & (b & xs & EX & Lxs & Nxs) & HY).
    assert (Pco : 0 < co) by apply (c_pos _ _ _ _ _ _ HP).
    assert (HK : kernel_local w (conv_kernel w cout groups W bias) (fun _ => cout)) by (apply conv_local; auto; lia).
    destruct (continued_sequential m _ _ w X Y Hw HK Hm HY) as [HY' (b' & c' & xs' & EX' & F)].
    rewrite EX in EX'. inversion EX'; subst b' c' xs'. clear EX'.
    split; [|exists b, xs; auto].
    do 2 (split; [auto|]). split; [exact cm_window|]. do 7 (split; [auto|]). split; [|exact HY'].
    exists b, (map2 (fun n p => n + 2 * p) xs (w_padding w)). pose proof (Forall2_length _ _ _ F) as Lp. split; [|split].
    - unfold Xp, continued_tensor. cbn [tshape]. rewrite EX. reflexivity.
    - rewrite map2_length; auto.
    - apply Forall_forall. intros z Hz. destruct (In_nth _ _ 0 Hz) as (j & Hj & <-). rewrite map2_length in Hj by auto.
      rewrite map2_nth with (da := 0) (db := 0) by lia. destruct (window_nth _ _ j Hw) as (_ & _ & B3 & _); [lia|].
      assert (0 <= nth j xs 0) by (apply nth_nonneg; exact Nxs). lia.
  Qed.

  Variables (b : Z) (xs ys : list Z).
  Hypothesis EX : tshape X = b :: cin :: xs.
  Hypothesis Lxs : length xs = nk.
  Hypothesis EY : tshape Y = b :: cout :: ys.
  Let xp := map2 (fun n p => n + 2 * p) xs (w_padding w).

  Lemma cm_pad : Forall2 (continuable m) xs (w_padding w).
  Proof.
    destruct cm_layer as [_ (b' & xs' & EX' & _ & _ & F)]. rewrite EX in EX'. inversion EX'; subst. exact F.
  Qed.
  Lemma EXp : tshape Xp = b :: cin :: xp.
  Proof. unfold Xp, continued_tensor. cbn [tshape]. rewrite EX. reflexivity. Qed.
  Lemma Lxp : length xp = length (w_kernel w0).
  Proof. unfold xp. rewrite map2_length; [exact Lxs|]. exact (Forall2_length _ _ _ cm_pad). Qed.

  Variables (j i : Z) (wt : tensor R) (bt : option (tensor R)).
  Hypothesis Hj : 0 <= j < co.
  Hypothesis Hi : 0 <= i < ci.
  Hypothesis Hwt : teq wt (weight_block co ci w W j i).
  Hypothesis Hbt : match (if i =? 0 then bias_block co cout bias j else None), bt with
                   | Some v, Some v' => teq v' v
                   | None, None => True
                   | _, _ => False
                   end.
  Hypothesis HS1 : S = repeat 1 nk.

  (** Continuing a block of channels gives a block of the continued tensor. *)
  Lemma cm_blocks : teq (continued_tensor m w (block (balanced (tshape X) (1 :: ci :: repeat 1 nk)) (0 :: i :: repeat 0 nk) X))
                        (block (balanced (tshape Xp) (1 :: ci :: repeat 1 nk)) (0 :: i :: repeat 0 nk) Xp).
  Proof.
    destruct (proj1 cm_layer) as (HP & _). assert (P2 : 0 < ci) by apply (c_pos _ _ _ _ _ _ HP).
    set (B := block (balanced (tshape X) (1 :: ci :: repeat 1 nk)) (0 :: i :: repeat 0 nk) X).
    assert (EB : tshape B = b :: subshape1 ci i cin :: xs).
    { unfold B. cbn [block tshape]. rewrite EX, !bal_shape_cons by lia. rewrite unit_sub. rewrite <- Lxs. now rewrite ones_shape. }
    assert (VB : forall b' ch p, length p = length xs -> tat B (b' :: ch :: p) = tat X (b' :: start1 ci i cin + ch :: p)).
    { intros b' ch p Lp. unfold B. cbn [block tat]. rewrite ?EX, !bal_lo_cons by lia. rewrite <- Lxs, ones_lo.
      rewrite start1_0 by lia. pose proof (zeros_vadd (length xs) p Lp) as Ez. unfold vadd in *. cbn [map2]. now rewrite Z.add_0_l, Ez. }
    set (B' := block (balanced (tshape Xp) (1 :: ci :: repeat 1 nk)) (0 :: i :: repeat 0 nk) Xp).
    pose proof Lxp as Lp'. change (length (w_kernel w0)) with nk in Lp'.
    assert (EB' : tshape B' = b :: subshape1 ci i cin :: xp).
    { unfold B'. cbn [block tshape]. rewrite EXp, !bal_shape_cons by lia. rewrite unit_sub. rewrite <- Lp'. now rewrite ones_shape. }
    assert (VB' : forall b' ch p, length p = length xs -> tat B' (b' :: ch :: p) = tat Xp (b' :: start1 ci i cin + ch :: p)).
    { intros b' ch p Lp. unfold B'. cbn [block tat]. rewrite ?EXp, !bal_lo_cons by lia. rewrite <- Lp', ones_lo.
      rewrite start1_0 by lia. pose proof (zeros_vadd (length xp) p ltac:(lia)) as Ez. unfold vadd in *. cbn [map2]. now rewrite Z.add_0_l, Ez. }
    pose proof (Forall2_length _ _ _ cm_pad) as Lpad.
    assert (Ec : tshape (continued_tensor m w B) = b :: subshape1 ci i cin :: xp).
    { unfold continued_tensor. cbn [tshape]. rewrite EB. reflexivity. }
    split; [congruence|]. intros q Hq. rewrite Ec in Hq.
    apply valid_index_cons_inv in Hq as (b' & q1 & -> & _ & Hq). apply valid_index_cons_inv in Hq as (ch & p & -> & _ & Hq).
    apply valid_index_length in Hq. unfold continued_tensor at 1. cbn [tat]. rewrite EB. cbn [firstn skipn app].
    rewrite VB by (rewrite map3_length; lia). rewrite VB' by lia.
    unfold Xp, continued_tensor. cbn [tat]. rewrite EX. reflexivity.
  Qed.

  Lemma moded_part t : teq t (block (balanced (tshape X) (1 :: ci :: repeat 1 nk)) (0 :: i :: repeat 0 nk) X) ->
    exists t', torch_conv_mode m w groups wt bt t = Ok t' /\
               teq t' (part_out co ci S w0 groups cin cout b ys W Xp bias j i (repeat 0 nk)).
  Proof.
    intros Ht. pose proof (proj1 cm_layer) as HL. pose proof HM as (HP & _ & Hw & Hd & _).
    assert (P2 : 0 < ci) by apply (c_pos _ _ _ _ _ _ HP).
    assert (EB : tshape (block (balanced (tshape X) (1 :: ci :: repeat 1 nk)) (0 :: i :: repeat 0 nk) X) = b :: subshape1 ci i cin :: xs).
    { cbn [block tshape]. rewrite EX, !bal_shape_cons by lia. rewrite unit_sub. rewrite <- Lxs. now rewrite ones_shape. }
    assert (Et : tshape t = b :: subshape1 ci i cin :: xs) by (destruct Ht as [E _]; congruence).
    unfold torch_conv_mode. rewrite Et. cbn [nth].
    rewrite (h_check Px Py Pw co ci S w0 groups cin cout W bias Xp Y HL HE j i wt Hj Hi Hwt), Z.eqb_refl.
    pose proof (h_conv_local Px Py Pw co ci S w0 groups cin cout W bias Xp Y HL HE j i wt bt Hj Hi Hwt) as HK. cbv zeta in HK.
    destruct (f_pad_mode_ok m w b (subshape1 ci i cin) xs t Hm) as (t2 & E1 & E2 & E3); auto.
    { destruct Hw as (_ & _ & -> & _). now apply dims_ok. }
    { exact cm_pad. }
    assert (Em : torch_padded_mode m w (conv_kernel w (nth 0 (tshape wt) 0) groups wt bt) (fun _ => nth 0 (tshape wt) 0) t =
                 torch_sliding (conv_kernel w (nth 0 (tshape wt) 0) groups wt bt) (fun _ => nth 0 (tshape wt) 0) w t2).
    { unfold torch_padded_mode. rewrite E1. destruct m; congruence. }
    rewrite Em.
    apply sliding_serial with (G := block (balanced (tshape Xp) (1 :: ci :: repeat 1 nk)) (0 :: i :: repeat 0 nk) Xp) (value := rzero); auto.
    - exact (part_sequential Px Py Pw co ci S w0 groups cin cout W bias Xp Y HL HE b xp ys EXp Lxp EY j i wt bt Hj Hi Hwt Hbt HS1).
    - cbn [block tshape]. rewrite EXp, !bal_shape_cons by lia. pose proof Lxp as Lp'. change (length (w_kernel w0)) with nk in Lp'.
      rewrite <- Lp', ones_shape. cbn [length]. now rewrite Lp'.
    - eapply teq_trans; [|exact cm_blocks]. eapply teq_trans.
      + split; [exact E2|]. intros q Hq. apply E3. apply valid_index_length in Hq. lia.
      + apply continued_teq; auto. eexists _, _, _. split; [exact EB|exact cm_pad].
  Qed.
End Channel.

Section SerialMode.
  Context {R : CRing}.
  Variables (m : pad_mode) (Px Py Pw : part) (co ci : Z) (S : list Z) (w : window) (groups cin cout : Z).
  Variables (W : tensor R) (bias : option (tensor R)) (X Y : tensor R).
  Hypothesis HM : conv_layer_mode m Px Py Pw co ci S w groups cin cout W bias X Y.
  Hypothesis HE : plain groups Px Py Pw.
  Hypothesis H1 : length (p_ranks Pw) = 1%nat.
  Variables weight bias_of : Z -> tensor R.
  Hypothesis HH : conv_parameters_held Pw co ci w cout W bias weight bias_of.
  Let nk := length (w_kernel w).

  Lemma zeros_layer : m = PadZeros -> conv_layer Px Py Pw co ci S w groups cin cout W bias X Y.
  Proof. intros E. pose proof HM as (A & B & C & _ & HM'). subst m. exact (conj A (conj B (conj C HM'))). Qed.

  Lemma serial_mode_ok idx v t : worker_at Py idx v -> teq t X ->
    exists t', torch_conv_mode m w groups (weight v) (if has_bias bias then Some (bias_of v) else None) t = Ok t' /\
               teq t' (block (balanced (tshape Y) (p_shape Py)) idx Y).
  Proof.
    intros Hv Ht. destruct (mode_dec m) as [E0|Hm].
    { pose proof (zeros_layer E0) as HL. subst m. exact (serial_ok Px Py Pw co ci S w groups cin cout W bias X Y HL HE H1 weight bias_of HH idx v t Hv Ht). }
    destruct (cm_layer m Px Py Pw co ci S w groups cin cout W bias X Y Hm HM) as [HL (b & xs & EX & Lxs & Nxs & F)].
    set (w0 := unpadded w) in *. set (Xp := continued_tensor m w X) in *.
    destruct (one_shape Px Py Pw co ci S w0 groups cin cout W bias Xp Y HL H1 weight bias_of HH) as (E1 & E2 & E3).
    change (length (w_kernel w0)) with nk in E3.
    pose proof HE as [_ E4]. destruct (E4 H1) as [E5 E6].
    pose proof (k_parts _ _ _ _ _ _ _ _ _ _ _ _ _ _ HL) as HP.
    pose proof HL as (_ & HS & Hw & Hco & Hci & Hg & Hgo & Hgi & HW & HB & _ & HY).
    pose proof HY as (b0 & c & xs' & ys & EX' & EY & Hcnt & Hb & Hc & Hys & _).
    assert (EXp : tshape Xp = b :: cin :: map2 (fun n p => n + 2 * p) xs (w_padding w)) by (unfold Xp, continued_tensor; cbn [tshape]; now rewrite EX).
    rewrite EXp in EX'. inversion EX'; subst b0 c. clear EX'.
    assert (Hz : valid_index S (repeat 0 nk)).
    { rewrite E3. clear. induction nk as [|n IH]; [constructor|]. cbn [repeat]. apply valid_index_cons. split; [lia|auto]. }
    assert (Hw0 : worker_at Pw (0 :: 0 :: repeat 0 nk) v).
    { assert (Hin : In v (p_ranks Pw)) by (rewrite <- E6; eapply worker_at_In; eauto).
      destruct (worker_at_exists Pw v (c_pw _ _ _ _ _ _ HP) Hin) as [idx' Hv'].
      destruct (pw_idx _ _ _ _ _ _ HP _ (proj1 Hv')) as (j & i & s & -> & Hj & Hi & Hs).
      assert (j = 0) by lia. assert (i = 0) by lia. subst j i. rewrite E3 in Hs. apply ones_idx in Hs. now subst s. }
    destruct (py_idx _ _ _ _ _ _ HP idx (proj1 Hv)) as (j & s & -> & Hj & Hs). assert (j = 0) by lia. subst j.
    pose proof Hs as Hs'. rewrite E3 in Hs'. apply ones_idx in Hs'. subst s. clear Hj.
    destruct HH as (HH1 & HH2 & _). fold nk in HH1, HH2.
    destruct (moded_part m Px Py Pw co ci S w groups cin cout W bias X Y Hm HM HE b xs ys EX Lxs EY 0 0 (weight v)
                (if has_bias bias then Some (bias_of v) else None) ltac:(lia) ltac:(lia)) with (t := t) as (t' & T1 & T2); auto.
    - apply HH1. exact Hw0.
    - cbn [Z.eqb]. unfold bias_block. destruct bias as [bb|]; cbn [has_bias]; auto.
    - eapply teq_trans; [exact Ht|]. apply teq_sym. rewrite E2. apply single_block.
      + rewrite balanced_workers; [|constructor; [lia|]; constructor; [lia|]; apply repeat_pos|rewrite EX; cbn [length]; rewrite repeat_length; congruence].
        constructor; auto. constructor; auto. apply Forall_forall. intros z Hz'. now apply repeat_spec in Hz'.
      + rewrite balanced_workers; [|constructor; [lia|]; constructor; [lia|]; apply repeat_pos|rewrite EX; cbn [length]; rewrite repeat_length; congruence].
        fold nk. rewrite <- E3. repeat (apply valid_index_cons; split; [lia|]). exact Hz.
      + rewrite balanced_shape; auto; [constructor; [lia|]; constructor; [lia|]; apply repeat_pos| |rewrite EX; cbn [length]; rewrite repeat_length; congruence].
        rewrite EX. constructor; [lia|]. constructor; [lia|]. exact Nxs.
    - exists t'. split; [exact T1|]. eapply teq_trans; [exact T2|]. fold w0 Xp nk.
      assert (Lx' : length (map2 (fun n p => n + 2 * p) xs (w_padding w)) = length (w_kernel w0)).
      { rewrite map2_length; [exact Lxs|]. exact (Forall2_length _ _ _ F). }
      destruct (k_pos _ _ _ _ _ _ _ _ _ _ _ _ _ _ HL) as (P1 & P2 & P3). split.
      + rewrite (c_sy _ _ _ _ _ _ HP). cbn [part_out tshape block].
        refine (part_block_shape co S w0 groups cin cout b ys W Xp bias Hg Y _ EXp Lx' EY HY P3 HS 0 (repeat 0 nk) _ Hs). lia.
      + intros q Hq. rewrite (c_sy _ _ _ _ _ _ HP).
        rewrite <- (parts_sum co ci S w0 groups cin cout b ys W Xp bias) with (xs := map2 (fun n p => n + 2 * p) xs (w_padding w)); auto; try lia.
        rewrite E2. change (zrange 1) with [0]. now rewrite sumf_cons, sumf_nil, radd_0_r.
  Qed.
End SerialMode.

Lemma C59_channel_proof : C59_channel_statement plain.
Proof.
  intros R m Px Py Pw co ci w groups cin cout W bias X Y weight bias_of x dt dt' rg rg' HM HE HH HX HO.
  destruct (mode_dec m) as [E0|Hm].
  { pose proof (zeros_layer _ _ _ _ _ _ _ _ _ _ _ _ _ _ _ HM E0) as HL. subst m.
    exact (C33_channel_proof R Px Py Pw co ci w groups cin cout W bias X Y weight bias_of x dt dt' rg rg' HL HE HH HX HO). }
  set (S := repeat 1 (length (w_kernel w))) in *.
  destruct (cm_layer m Px Py Pw co ci S w groups cin cout W bias X Y Hm HM) as [HL (b & xs & EX & Lxs & Nxs & F)].
  set (w0 := unpadded w) in *. set (Xp := continued_tensor m w X) in *.
  pose proof (k_parts _ _ _ _ _ _ _ _ _ _ _ _ _ _ HL) as HP.
  pose proof HL as (_ & HS & Hw & Hco & Hci & Hg & Hgo & Hgi & HW & HB & _ & HY).
  pose proof HY as (b0 & c & xs' & ys & EX' & EY & Hcnt & Hb & Hc & Hys & _).
  set (xp := map2 (fun n p => n + 2 * p) xs (w_padding w)).
  assert (EXp : tshape Xp = b :: cin :: xp) by (unfold Xp, continued_tensor; cbn [tshape]; now rewrite EX).
  assert (Lxp : length xp = length (w_kernel w0)).
  { unfold xp. rewrite map2_length; [exact Lxs|]. exact (Forall2_length _ _ _ F). }
  rewrite EXp in EX'. inversion EX'; subst b0 c. clear EX'.
  assert (NX : nonneg_shape (tshape X)) by (rewrite EX; constructor; [lia|]; constructor; [lia|auto]).
  assert (HSk : ChannelConv = ChannelConv -> S = repeat 1 (length S)) by (intros _; unfold S; now rewrite repeat_length).
  assert (LX : length (tshape X) = length (p_shape Px)).
  { rewrite EX, (c_sx _ _ _ _ _ _ HP). cbn [length]. unfold S. rewrite repeat_length. now rewrite Lxs. }
  assert (PX : pos_shape (p_shape Px)) by apply (c_px _ _ _ _ _ _ HP).
  split; [exact (k_weights _ _ _ _ _ _ _ _ _ _ _ _ _ _ HL HE b xp ys Lxp)|].
  destruct (Nat.eqb_spec (length (p_ranks Pw)) 1) as [E1|E1].
  - pose proof HE as [_ E4]. destruct (E4 E1) as [E5 E6]. split; [|split].
    + intros idx d Hd. pose proof (worker_at_In _ _ _ Hd) as Hin. unfold channel_conv_forward_mode. rewrite active_test by auto.
      rewrite (c_recast_x Px Py Pw co ci S HP ChannelConv d HSk), (c_recast_y Px Py Pw co ci S HP ChannelConv d HSk). cbn [rbind].
      unfold serial. rewrite (proj2 (is_active_spec (p_ranks Pw) d)) by now rewrite <- E6. rewrite E1. cbn [Nat.eqb andb].
      apply (serial_mode_ok m Px Py Pw co ci S w groups cin cout W bias X Y HM HE E1 weight bias_of HH idx d (x d) Hd).
      assert (Hin' : In d (p_ranks Px)) by (rewrite E5, <- E6; auto).
      destruct (worker_at_exists Px d (c_px _ _ _ _ _ _ HP) Hin') as [idx' Hd']. destruct HX as [ES HX].
      eapply teq_trans; [apply (HX idx' d Hd')|].
      destruct (one_shape Px Py Pw co ci S w0 groups cin cout W bias Xp Y HL E1 weight bias_of HH) as (Q1 & Q2 & ES').
      apply single_block.
      * rewrite balanced_workers by auto. rewrite (c_sx _ _ _ _ _ _ HP), Q2. constructor; auto. constructor; auto.
        rewrite ES'. apply Forall_forall. intros z Hz. now apply repeat_spec in Hz.
      * rewrite balanced_workers by auto. apply Hd'.
      * now rewrite balanced_shape by auto.
    + intros v Hv Hn. exfalso. apply Hn. rewrite E6. destruct Hv; auto. congruence.
    + intros v A1 A2 A3. unfold channel_conv_forward_mode. now rewrite inactive_test.
  - apply delivers_ext with (x' := x) (y' := work_forward Px Pw (y_part Py co S) false false false dt dt' rg rg'
      (channel_local_mode m Pw w groups (has_bias bias) weight bias_of) x).
    + intros v Hv. unfold channel_conv_forward_mode. rewrite active_test by auto.
      rewrite (c_recast_x Px Py Pw co ci S HP ChannelConv v HSk), (c_recast_y Px Py Pw co ci S HP ChannelConv v HSk). cbn [rbind].
      unfold partner_missing, serial. apply Nat.eqb_neq in E1. rewrite E1, !andb_false_r. reflexivity.
    + intros v A1 A2 A3. unfold channel_conv_forward_mode. now rewrite inactive_test.
    + apply (k_combine Px Py Pw co ci S w0 groups cin cout W bias Xp Y HL HE b xp ys EXp Lxp EY); auto.
      * intros v Hv. destruct (worker_at_exists Px v (c_px _ _ _ _ _ _ HP) Hv) as [idx Hi]. destruct HX as [ES HX].
        destruct (HX idx v Hi) as [Ev _]. rewrite Ev. cbn [block tshape]. rewrite balanced_block_shape by (auto; apply Hi).
        destruct (px_idx _ _ _ _ _ _ HP idx (proj1 Hi)) as (i & s & -> & Hii & Hs).
        rewrite EX, (c_sx _ _ _ _ _ _ HP). unfold compute_subshape. cbn [map3]. split; [|discriminate].
        constructor; [rewrite unit_sub; lia|]. constructor; [apply subshape1_nonneg; lia|].
        clear - Nxs Hs HS Lxs. unfold S in *. apply ones_idx in Hs. subst s. rewrite <- Lxs. clear - Nxs.
        induction Nxs as [|n l Hn Nl IH]; [constructor|]. cbn [length repeat map3]. constructor; [now rewrite unit_sub|auto].
      * intros j i s u v t Hu Hv Hj Hi Hs Ht. unfold channel_local_mode. pose proof Hu as Hu'.
        apply index_in_spec in Hu'; [|apply (c_pw _ _ _ _ _ _ HP)]. rewrite Hu'. cbn [nth].
        pose proof Hs as Hs'. unfold S in Hs'. apply ones_idx in Hs'. subst s. destruct HH as (HH1 & HH2 & _).
        apply (moded_part m Px Py Pw co ci S w groups cin cout W bias X Y Hm HM HE b xs ys EX Lxs EY j i (weight u)); auto.
        -- apply HH1; auto.
        -- destruct (Z.eqb_spec i 0) as [->|]; cbn [andb]; auto. unfold bias_block. destruct bias as [bb|]; cbn [has_bias]; auto.
        -- eapply teq_trans; [exact Ht|]. destruct HX as [_ HX]. pose proof (HX _ _ Hv) as HX'. rewrite (c_sx _ _ _ _ _ _ HP) in HX'. exact HX'.
Qed.

Theorem C59_channel_modes : C59_channel_statement plain.
Proof. exact C59_channel_proof. Qed.

(** ** Channels and features distributed *)

(** As [C59_feature_statement] for the general layer: the workers of P_x pad. *)
Definition C59_general_statement (extra : Z -> part -> part -> part -> Prop) (fits : layout -> window -> list Z -> Prop) : Prop :=
  forall (R : CRing) (m : pad_mode) (world : list Z) (Px Py Pw : part) (co ci : Z) (S : list Z) (L : layout) (w : window) (groups cin cout : Z)
    (W : tensor R) (bias : option (tensor R)) (X Y : tensor R) (weight bias_of x : Z -> tensor R) dt dt' dtw dtb rg rg' rgw rgb,
  conv_layer_mode m Px Py Pw co ci S w groups cin cout W bias X Y ->
  extra groups Px Py Pw ->
  conv_parameters_held Pw co ci w cout W bias weight bias_of ->
  feature_given world Px L w -> holds_blocks Px L X x -> others_pass Px Py Pw x ->
  ((1 < length (p_ranks Pw))%nat -> fits L w (out_counts X Y)) ->
  let shape v := tshape (x v) in
  let arg := halo_argument_mode m Px w shape x in
  let plan := halo_plan Px w shape in
  let layer := history_rounds Px (fun v => tshape (arg v)) (fun v => u_recv (plan v)) (fun v => u_send (plan v)) in
  let output := general_conv_forward_mode m Px Py Pw w groups (has_bias bias) dt dt' dtw dtb rg rg' rgw rgb weight bias_of shape x in
  (m <> PadZeros -> (1 < length (p_ranks Pw))%nat ->
     forall exchanged idx v, worker_at Px idx v -> must_pad Px w shape idx v -> output exchanged v = Raise ErrTorch) /\
  weights_made Pw co ci w groups cin cout W /\
  forall pre init eager g, same_calls Px arg pre -> ends world (layer (pre ++ [HForward arg])) init eager g ->
    m = PadZeros \/ length (p_ranks Pw) = 1%nat \/ (forall v, In v (p_ranks Px) -> exists t, output (halo_result g) v = Ok t) ->
    conv_delivers Px Py Pw Y x (output (halo_result g)).

Lemma C59_general_proof : C59_general_statement plain within.
Proof.
  intros R m world Px Py Pw co ci S L w groups cin cout W bias X Y weight bias_of x dt dt' dtw dtb rg rg' rgw rgb HM HE HH HG HX HO HF shape arg plan layer output.
  pose proof HM as (HP & HS & Hw & Hd & Hco & Hci & Hg & Hgo & Hgi & HW & HB & HXs & HY).
  assert (HSk : GeneralConv = ChannelConv -> S = repeat 1 (length S)) by discriminate.
  assert (Pco : 0 < co) by apply (c_pos _ _ _ _ _ _ HP).
  assert (HK : kernel_local w (conv_kernel w cout groups W bias) (fun _ => cout)) by (apply conv_local; auto; lia).
  (* several workers *)
  assert (Step : length (p_ranks Pw) <> 1%nat -> forall ex v, In v (p_ranks Px) \/ In v (p_ranks Py) \/ In v (p_ranks Pw) ->
    output ex v = match halo_input_mode m Px w shape x v with
      | Raise e => Raise e
      | Ok _ => general_conv_forward Px Py Pw w groups (has_bias bias) dt dt' dtw dtb rg rg' rgw rgb weight bias_of shape x ex v
      end).
  { intros E1 ex v Hv. unfold output, general_conv_forward_mode, general_conv_forward. rewrite active_test by auto.
    rewrite (c_recast_x Px Py Pw co ci S HP GeneralConv v HSk), (c_recast_y Px Py Pw co ci S HP GeneralConv v HSk). cbn [rbind].
    unfold partner_missing, serial. apply Nat.eqb_neq in E1. rewrite E1, !andb_false_r.
    destruct (halo_input_mode m Px w shape x v); reflexivity. }
  assert (Rej : m <> PadZeros -> length (p_ranks Pw) <> 1%nat -> forall ex idx v, worker_at Px idx v -> must_pad Px w shape idx v -> output ex v = Raise ErrTorch).
  { intros Hm E1 ex idx v Hv Hp. rewrite Step by (auto; left; eapply worker_at_In; eauto).
    assert (E : halo_input_mode m Px w shape x v = Raise ErrTorch); [|now rewrite E].
    destruct Hp as [Hp|(a & b & Hi & Hn)].
    - exact (pm_border m world Px L w X x Hm HG HX idx v Hv Hp).
    - destruct (pm_input m world Px L w X x Hm HG HX idx v Hv) as [(_ & _ & _ & F)|[E _]]; [|exact E].
      exfalso. apply Hn. rewrite Forall_forall in F. exact (F _ Hi). }
  split; [intros Hm Hl; apply Rej; auto; lia|].
  assert (HWm : weights_made Pw co ci w groups cin cout W).
  { destruct (mode_dec m) as [E0|Hm].
    - pose proof (zeros_layer m Px Py Pw co ci S w groups cin cout W bias X Y HM E0) as HL.
      destruct HXs as (b & xs & EX & Lxs & Nxs). exact (k_weights _ _ _ _ _ _ _ _ _ _ _ _ _ _ HL HE b xs xs Lxs).
    - destruct (cm_layer m Px Py Pw co ci S w groups cin cout W bias X Y Hm HM) as [HL (b & xs & EX & Lxs & _)].
      exact (k_weights Px Py Pw co ci S (unpadded w) groups cin cout W bias _ Y HL HE b xs xs Lxs). }
  split; [exact HWm|].
  intros pre init eager g Hpre Hend Hok.
  destruct (Nat.eqb_spec (length (p_ranks Pw)) 1) as [E1|E1].
  - (* a single worker *)
    pose proof HE as [_ E4]. destruct (E4 E1) as [E5 E6].
    assert (ES' : ci = 1 /\ S = repeat 1 (length (w_kernel w))).
    { destruct (mode_dec m) as [E0|Hm].
      - pose proof (zeros_layer m Px Py Pw co ci S w groups cin cout W bias X Y HM E0) as HL.
        destruct (one_shape Px Py Pw co ci S w groups cin cout W bias X Y HL E1 weight bias_of HH) as (_ & Q2 & Q3). auto.
      - destruct (cm_layer m Px Py Pw co ci S w groups cin cout W bias X Y Hm HM) as [HL _].
        destruct (one_shape Px Py Pw co ci S (unpadded w) groups cin cout W bias _ Y HL E1 weight bias_of HH) as (_ & Q2 & Q3). auto. }
    destruct ES' as [Q2 ES'].
    split; [|split].
    + intros idx d Hd'. pose proof (worker_at_In _ _ _ Hd') as Hin. unfold output, general_conv_forward_mode. rewrite active_test by auto.
      rewrite (c_recast_x Px Py Pw co ci S HP GeneralConv d HSk), (c_recast_y Px Py Pw co ci S HP GeneralConv d HSk). cbn [rbind].
      unfold serial. rewrite (proj2 (is_active_spec (p_ranks Pw) d)) by now rewrite <- E6. rewrite E1. cbn [Nat.eqb andb].
      apply (serial_mode_ok m Px Py Pw co ci S w groups cin cout W bias X Y HM HE E1 weight bias_of HH idx d (x d) Hd').
      assert (Hin' : In d (p_ranks Px)) by (rewrite E5, <- E6; auto).
      destruct (worker_at_exists Px d (c_px _ _ _ _ _ _ HP) Hin') as [idx' Hd'']. destruct HX as [ES HX].
      eapply teq_trans; [apply (HX idx' d Hd'')|]. destruct HG as (_ & _ & _ & _ & EL & _).
      apply single_block; [|rewrite EL; apply Hd''|exact ES].
      rewrite EL, (c_sx _ _ _ _ _ _ HP), Q2. constructor; auto. constructor; auto.
      rewrite ES'. apply Forall_forall. intros z Hz. now apply repeat_spec in Hz.
    + intros v Hv Hn. exfalso. apply Hn. rewrite E6. destruct Hv; auto. congruence.
    + intros v A1 A2 A3. unfold output, general_conv_forward_mode. now rewrite inactive_test.
  - assert (Out : forall v, ~ In v (p_ranks Px) -> ~ In v (p_ranks Pw) -> ~ In v (p_ranks Py) -> output (halo_result g) v = Ok (x v)).
    { intros v A1 A2 A3. unfold output, general_conv_forward_mode. now rewrite inactive_test. }
    destruct (mode_dec m) as [E0|Hm].
    + (* zeros *)
      pose proof (zeros_layer m Px Py Pw co ci S w groups cin cout W bias X Y HM E0) as HL. subst m.
      destruct (C33_general_proof R world Px Py Pw co ci S L w groups cin cout W bias X Y weight bias_of x dt dt' dtw dtb rg rg' rgw rgb HL HE HH HG HX HO HF)
        as (_ & [K1 _] & K2). cbv zeta in K1.
      assert (Ex : forall v, exists t, halo_input_mode PadZeros Px w shape x v = Ok t).
      { intros v. change (halo_input_mode PadZeros Px w shape x v) with (halo_input Px w rzero shape x v).
        destruct (in_dec Z.eq_dec v (p_ranks Px)) as [Hv|Hv].
        - unfold shape. rewrite K1; [eauto|]. apply HG; auto.
        - exists (x v). unfold halo_input, shape. now rewrite (g_inactive Px w x v Hv). }
      refine (delivers_ext Px Py Pw Y x x _ _ _ Out (K2 pre init eager g Hpre Hend)).
      intros v Hv. rewrite Step by auto. destruct (Ex v) as [t ->]. reflexivity.
    + destruct Hok as [Hok|[Hok|Hok]]; [congruence|congruence|].
      assert (Hq : forall v, In v (p_ranks Px) -> halo_input_mode m Px w shape x v <> Raise ErrTorch).
      { intros v Hv E. destruct (Hok v Hv) as [t Et]. rewrite Step in Et by auto. rewrite E in Et. discriminate. }
      assert (Hi : forall v, halo_input_mode m Px w shape x v = Ok (x v) /\ halo_input Px w rzero shape x v = Ok (x v)).
      { intros v. destruct (in_dec Z.eq_dec v (p_ranks Px)) as [Hv|Hv].
        - destruct (worker_at_exists Px v) as [idx Hidx]; [apply HG|auto|].
          destruct (pm_input m world Px L w X x Hm HG HX idx v Hidx) as [(A1 & A2 & _)|[E _]]; [auto|]. exfalso. now apply (Hq v).
        - exact (pm_inactive m Px w x v Hv). }
      pose proof (pm_quiet m world Px L w X x Hm HG HX Hq) as Eu.
      assert (Q2 : forall v, arg v = halo_argument Px w rzero shape x v).
      { intros v. unfold arg, halo_argument_mode, halo_argument. destruct (Hi v) as [-> ->]. reflexivity. }
      assert (HL : conv_layer Px Py Pw co ci S w groups cin cout W bias X Y).
      { do 11 (split; [auto|]). now apply unpadded_mode with (m := m). }
      destruct (C33_general_proof R world Px Py Pw co ci S L w groups cin cout W bias X Y weight bias_of x dt dt' dtw dtb rg rg' rgw rgb HL HE HH HG HX HO HF)
        as (_ & _ & K2).
      assert (Hpre' : same_calls Px (halo_argument Px w rzero (fun v => tshape (x v)) x) pre).
      { unfold same_calls in *. eapply Forall_impl; [|exact Hpre]. cbn. intros c Hc v Hv. rewrite Hc by auto. now rewrite Q2. }
      refine (delivers_ext Px Py Pw Y x x _ (general_conv_forward Px Py Pw w groups (has_bias bias) dt dt' dtw dtb rg rg' rgw rgb weight bias_of shape x (halo_result g)) _ Out _).
      * intros v Hv. rewrite Step by auto. destruct (Hi v) as [-> _]. reflexivity.
      * apply (K2 pre init eager g Hpre'). eapply ends_ext; [|exact Hend]. intros v _. apply history_ext; [|apply Q2]. now rewrite Q2.
Qed.

Theorem C59_general_modes : C59_general_statement plain within.
Proof. exact C59_general_proof. Qed.

(** ** The modes are not all available

    One would expect the workers to be ready for the exchange in every mode, as
    they are with 'zeros' ([halo_ready]). *)
Definition C59_ready_statement (m : pad_mode) : Prop :=
  forall (R : CRing) (world : list Z) (P : part) (L : layout) (w : window) (G : tensor R) (x : Z -> tensor R),
    feature_given world P L w -> (1 <= length (w_kernel w) <= 3)%nat -> holds_blocks P L G x ->
    Forall2 (continuable m) (skipn 2 (tshape G)) (w_padding w) ->
    forall v, In v world -> exists t, halo_input_mode m P w (fun v => tshape (x v)) x v = Ok t.

Theorem C59_modes_ready_refuted : forall m, m <> PadZeros -> ~ C59_ready_statement m.
Proof.
  intros m Hm H. destruct C30_convolutions_example as (A & _ & _ & _ & C & _).
  destruct (H Zring cv_world cv_P cv_L cv_w cv_G cv_x A ltac:(cbn; lia) C) with (v := 11) as [t Et].
  - constructor; [|constructor]. destruct m; split; cbn; auto; lia.
  - cbn. tauto.
  - destruct m; [congruence| | |]; vm_compute in Et; discriminate.
Qed.

(** ** Examples *)

(** The sequential layer in a mode, computed. *)
Definition seq_mode {R : CRing} (m : pad_mode) (f : @kernel R) (cout : Z -> Z) (w : window) (G : tensor R) (ys : list Z) : tensor R :=
  let xs := skipn 2 (tshape G) in
  let c := nth 1 (tshape G) 0 in
  mkt (nth 0 (tshape G) 0 :: cout c :: ys) (fun q => match q with
    | b' :: c' :: o => f c c' (fun ch t => tat G (b' :: ch :: vec (length xs) (fun j =>
        mode_source m (nth j xs 0) (nth j (w_stride w) 0 * nth j o 0 - nth j (w_padding w) 0 + nth j (w_dilation w) 0 * nth j t 0))))
    | _ => rzero
    end).

Lemma seq_mode_ok {R : CRing} m (f : @kernel R) cout w (G : tensor R) b c xs ys : m <> PadZeros ->
  window_ok (length (w_kernel w)) w -> kernel_local w f cout -> tshape G = b :: c :: xs -> counts xs w ys -> 0 < b -> 0 < c ->
  Forall (fun n => 0 < n) ys -> Forall2 (continuable m) xs (w_padding w) ->
  is_sequential_mode m f cout w G (seq_mode m f cout w G ys).
Proof.
  intros Hm Hw HK EG Hcnt Hb Hc Hys F. pose proof Hw as (W1 & W2 & W3 & W4 & _). pose proof (Forall2_length _ _ _ F) as Lx.
  enough (K : forall b' c' o g, valid_index (b :: cout c :: ys) (b' :: c' :: o) ->
      (forall ch t e, 0 <= ch < c -> valid_index (w_kernel w) t -> length e = length xs ->
         (forall j, (j < length xs)%nat -> continued m (nth j xs 0)
              (nth j (w_stride w) 0 * nth j o 0 - nth j (w_padding w) 0 + nth j (w_dilation w) 0 * nth j t 0) (nth j e 0)) ->
         g ch t = tat G (b' :: ch :: e)) ->
      tat (seq_mode m f cout w G ys) (b' :: c' :: o) = f c c' g).
  { assert (ES : tshape (seq_mode m f cout w G ys) = b :: cout c :: ys) by (unfold seq_mode; cbn [tshape]; now rewrite EG).
    destruct m; [congruence| | |]; exists b, c, xs, ys; rewrite ES; auto 10. }
  intros b' c' o g Hi Hg. unfold seq_mode. rewrite EG. cbn [tat nth skipn].
  apply valid_index_cons in Hi as [Hb' Hi]. apply valid_index_cons in Hi as [Hc' Ho].
  pose proof (proj1 (valid_index_nth _ _) Ho) as [Lo Bo]. destruct Hcnt as [Ly Hcnt].
  apply HK; auto. intros ch t Hch Ht. symmetry. apply Hg; auto; [apply vec_length|].
  intros j Hj. rewrite vec_nth by auto. pose proof (proj1 (valid_index_nth _ _) Ht) as [Lt Bt].
  destruct (window_nth _ _ j Hw) as (B1 & B2 & B3 & B4); [lia|].
  specialize (Bo j ltac:(lia)). specialize (Bt j ltac:(lia)).
  destruct (Hcnt j Hj) as [_ C]. pose proof (proj1 (C (nth j o 0) ltac:(lia)) ltac:(lia)) as C1. unfold window_fits in C1.
  apply source_ok with (p := nth j (w_padding w) 0); auto.
  - exact (proj2 (proj1 (Forall2_nth _ _ _ 0 0) F) j ltac:(lia)).
  - nia.
Qed.

(** Kernel 2, stride 2 and no padding, blocks 4, 4 and 2: no worker pads. *)
Definition pm_w : window := mkwindow [2] [2] [0] [1].
Definition pm_L : layout := [[1]; [2]; [4; 4; 2]].
Definition pm_weight (v : Z) : tensor Zring :=
  if v =? 10 then @mkt Zring [2; 2; 2] (fun i => 1 + 2 * nth 0 i 0 - nth 1 i 0 + nth 2 i 0) else @mkt Zring [0] (fun _ => 0).
Definition pm_x (v : Z) : tensor Zring := if v =? 9 then @mkt Zring [5] (fun _ => 9) else block pm_L [0; 0; v - 10] cv_G.
Definition pm_Y m : tensor Zring := seq_mode m (root_conv cv_P pm_w 2 1 true pm_weight cv_bias) (fun _ => 2) pm_w cv_G [5].
Definition pm_shape (v : Z) : list Z := tshape (pm_x v).
Definition pm_arg m := halo_argument_mode m cv_P pm_w pm_shape pm_x.
Definition pm_run m (v : Z) : tensor Zring :=
  last (h_hist (sync_rounds (history_rounds cv_P (fun v => tshape (pm_arg m v)) (fun v => u_recv (halo_plan cv_P pm_w pm_shape v))
                               (fun v => u_send (halo_plan cv_P pm_w pm_shape v)) [HForward (pm_arg m)]) cv_zero v)) (@mkt Zring [] (fun _ => 0)).
Definition pm_out m (v : Z) : result (tensor Zring) :=
  conv_forward_mode m cv_P pm_w 2 1 true (fun _ => 0) (fun _ => true) pm_weight cv_bias pm_shape pm_x (pm_run m) v.

(** The layer of C30's example (kernel 3, padding 1): all workers raise. *)
Definition pm_bad m (v : Z) : result (tensor Zring) :=
  conv_forward_mode m cv_P cv_w 2 1 true (fun _ => 0) (fun _ => true) cv_weight cv_bias cv_shape cv_x cv_run v.

Example C59_feature_example : forall m, m <> PadZeros ->
  feature_given cv_world cv_P pm_L pm_w /\ (1 <= length (w_kernel pm_w) <= 3)%nat /\ nth 1 (p_shape cv_P) 0 = 1 /\
  conv_parameters cv_P pm_w 2 2 1 true pm_weight cv_bias /\
  is_sequential_mode m (root_conv cv_P pm_w 2 1 true pm_weight cv_bias) (fun _ => 2) pm_w cv_G (pm_Y m) /\
  holds_blocks cv_P pm_L cv_G pm_x /\ within pm_L pm_w (out_counts cv_G (pm_Y m)) /\
  map (fun v => tshape (val (pm_out m v))) [9; 10; 11; 12] = [[5]; [1; 2; 2]; [1; 2; 2]; [1; 2; 1]] /\
  map (tat (val (pm_out m 11))) (indices [1; 2; 2]) = map (tat (pm_Y m)) [[0; 0; 2]; [0; 0; 3]; [0; 1; 2]; [0; 1; 3]] /\
  tat (pm_Y m) [0; 1; 3] = 1031 /\
  (* padding is refused *)
  is_sequential_mode m cv_f (fun _ => 2) cv_w cv_G (seq_mode m cv_f (fun _ => 2) cv_w cv_G [10]) /\
  must_pad cv_P cv_w cv_shape [0; 0; 0] 10 /\ must_pad cv_P cv_w cv_shape [0; 0; 1] 11 /\
  map (pm_bad m) [9; 10; 11; 12] = [Ok (cv_x 9); Raise ErrTorch; Raise ErrTorch; Raise ErrTorch].
Proof.
  intros m Hm.
  assert (A : feature_given cv_world cv_P pm_L pm_w).
  { split; [repeat constructor; simpl; lia|]. split; [simpl; tauto|].
    split; [repeat split; try discriminate; repeat constructor; simpl; lia|].
    split; [repeat constructor; lia|]. split; [reflexivity|]. split; [reflexivity|].
    repeat split; repeat constructor; lia. }
  assert (C : holds_blocks cv_P pm_L cv_G pm_x).
  { split; [reflexivity|]. intros idx v Hv. destruct (cv_workers _ _ Hv) as [-> [-> |[-> | ->]]]; apply teq_refl. }
  split; [exact A|]. split; [cbn; lia|]. split; [reflexivity|]. split.
  { split; [lia|]. split; [lia|]. split; [exists 2; lia|]. split; [exists 2; lia|]. split; [reflexivity|].
    split; [reflexivity|]. intros v Hv. unfold pm_weight, cv_bias. destruct (v =? 10); split; repeat constructor; lia. }
  split.
  { apply seq_mode_ok with (b := 1) (c := 2) (xs := [10]); auto; try lia.
    - apply A.
    - apply conv_local; try apply Z.divide_1_l; lia.
    - split; [reflexivity|]. intros [|j] Hj; [|cbn in Hj; lia]. cbn. split; [lia|]. unfold window_fits. intros. lia.
    - repeat constructor.
    - constructor; [|constructor]. destruct m; split; cbn; auto; lia. }
  split; [exact C|]. split.
  { intros [|[|[|j]]] Hj; cbn in Hj; [| | |lia].
    - intros [|i] Hi; vm_compute in Hi; [|lia]. repeat split; intros; vm_compute; (reflexivity || discriminate).
    - intros [|i] Hi; vm_compute in Hi; [|lia]. repeat split; intros; vm_compute; (reflexivity || discriminate).
    - intros [|[|[|i]]] Hi; vm_compute in Hi; [| | |lia]; repeat split; intros; vm_compute; (reflexivity || discriminate). }
  do 3 (split; [destruct m; [congruence| | |]; vm_compute; reflexivity|]).
  split.
  { apply seq_mode_ok with (b := 1) (c := 2) (xs := [10]); auto; try lia.
    - repeat split; repeat constructor; cbn; lia.
    - apply conv_local; try apply Z.divide_1_l; lia.
    - split; [reflexivity|]. intros [|j] Hj; [|cbn in Hj; lia]. cbn. split; [lia|]. unfold window_fits. intros. lia.
    - repeat constructor.
    - constructor; [|constructor]. destruct m; split; cbn; auto; lia. }
  split; [left; exists 0%nat; split; [cbn; lia|]; split; [reflexivity|now left]|]. split.
  { right. exists 1, 1. split; [vm_compute; tauto|discriminate]. }
  destruct m; [congruence| | |]; vm_compute; reflexivity.
Qed.

(** The layer of C33's example in every mode. *)
Definition pm_CY m : tensor Zring := seq_mode m (conv_kernel ex33_win 5 1 ex33_W (Some ex33_b)) (fun _ => 5) ex33_win ex33_X [4].
Definition pm_Cout m (v : Z) : result (tensor Zring) :=
  channel_conv_forward_mode m ex33_x ex33_y ex33_w ex33_win 1 true (fun _ => 0) (fun _ => 0) (fun _ => true) (fun _ => true)
             ex33_weight ex33_bias ex33_in v.

Example C59_channel_example : forall m, m <> PadZeros ->
  conv_layer_mode m ex33_x ex33_y ex33_w 3 2 [1] ex33_win 1 3 5 ex33_W (Some ex33_b) ex33_X (pm_CY m) /\
  plain 1 ex33_x ex33_y ex33_w /\
  conv_parameters_held ex33_w 3 2 ex33_win 5 ex33_W (Some ex33_b) ex33_weight ex33_bias /\
  holds_blocks ex33_x (balanced [2; 3; 4] [1; 2; 1]) ex33_X ex33_in /\ others_pass ex33_x ex33_y ex33_w ex33_in /\
  tshape (val (pm_Cout m 7)) = [2; 2; 4] /\
  map (tat (val (pm_Cout m 7))) [[1; 1; 0]; [1; 1; 1]; [1; 1; 3]] = map (tat (pm_CY m)) [[1; 3; 0]; [1; 3; 1]; [1; 3; 3]] /\
  map (tat (pm_CY m)) [[1; 3; 0]; [1; 3; 1]; [1; 3; 3]] =
    match m with
    | PadReflect => [44872; 44974; 45352]
    | PadReplicate => [44779; 44974; 45451]
    | _ => [45058; 44974; 45154]
    end.
Proof.
  intros m Hm. destruct C33_channel_example as (HL & A2 & A3 & A4 & A5 & _).
  destruct HL as (B1 & B2 & B3 & B4 & B5 & B6 & B7 & B8 & B9 & B10 & B11 & B12).
  split.
  - do 3 (split; [auto|]). split; [cbn; lia|]. do 8 (split; [auto|]).
    apply seq_mode_ok with (b := 2) (c := 3) (xs := [4]); auto; try lia.
    + apply conv_local; try apply Z.divide_1_l; lia.
    + split; [reflexivity|]. intros [|j] Hj; [|cbn in Hj; lia]. cbn. split; [lia|]. unfold window_fits. intros. lia.
    + constructor; [|constructor]. destruct m; split; cbn; auto; lia.
  - do 4 (split; [auto|]). destruct m; [congruence| | |]; vm_compute; repeat split; reflexivity.
Qed.

(** The layer of C33's example with kernel 2, stride 2 and no padding. *)
Definition pg_win : window := mkwindow [2] [2] [0] [1].
Definition pg_W : tensor Zring := @mkt Zring [4; 3; 2] (fun i => 1 + row_major [4; 3; 2] i).
Definition pg_Y m : tensor Zring := seq_mode m (conv_kernel pg_win 4 1 pg_W (Some gc_b)) (fun _ => 4) pg_win gc_X [4].
Definition pg_weight (v : Z) : tensor Zring :=
  match index_in gc_w v with
  | Some [j; i; 0] => block (balanced [4; 3; 2] [2; 2; 1]) [j; i; 0] pg_W
  | _ => @mkt Zring [0] (fun _ => 0) end.
Definition pg_arg m := halo_argument_mode m gc_x pg_win gc_shape gc_in.
Definition pg_run m (v : Z) : tensor Zring :=
  last (h_hist (sync_rounds (history_rounds gc_x (fun v => tshape (pg_arg m v)) (fun v => u_recv (halo_plan gc_x pg_win gc_shape v))
                               (fun v => u_send (halo_plan gc_x pg_win gc_shape v)) [HForward (pg_arg m)]) cv_zero v)) (@mkt Zring [] (fun _ => 0)).
Definition pg_out m (w : window) (weight ex : Z -> tensor Zring) (v : Z) : result (tensor Zring) :=
  general_conv_forward_mode m gc_x gc_y gc_w w 1 true (fun _ => 0) (fun _ => 0) (fun _ => 0) (fun _ => 0)
    (fun _ => true) (fun _ => true) (fun _ => true) (fun _ => true) weight gc_bias gc_shape gc_in ex v.

Example C59_general_example : forall m, m <> PadZeros ->
  conv_layer_mode m gc_x gc_y gc_w 2 2 [2] pg_win 1 3 4 pg_W (Some gc_b) gc_X (pg_Y m) /\
  plain 1 gc_x gc_y gc_w /\
  conv_parameters_held gc_w 2 2 pg_win 4 pg_W (Some gc_b) pg_weight gc_bias /\
  feature_given gc_world gc_x gc_L pg_win /\
  holds_blocks gc_x gc_L gc_X gc_in /\ others_pass gc_x gc_y gc_w gc_in /\
  within gc_L pg_win (out_counts gc_X (pg_Y m)) /\
  map (fun v => tshape (val (pg_out m pg_win pg_weight (pg_run m) v))) [0; 3; 4; 5; 8] = [[1; 2; 2]; [1; 0]; [1; 2; 2]; [1; 2; 2]; [1; 2; 2]] /\
  map (tat (val (pg_out m pg_win pg_weight (pg_run m) 5))) (indices [1; 2; 2]) = map (tat (pg_Y m)) [[0; 0; 2]; [0; 0; 3]; [0; 1; 2]; [0; 1; 3]] /\
  tat (pg_Y m) [0; 1; 3] = 20892 /\
  (* padding is refused *)
  must_pad gc_x gc_win gc_shape [0; 1; 1] 3 /\
  map (pg_out m gc_win gc_weight gc_run) [0; 1; 2; 3] = repeat (Raise ErrTorch) 4.
Proof.
  intros m Hm. destruct C33_general_example as (HL & A2 & (H1 & H2 & H3) & A4 & A5 & A6 & _).
  destruct HL as (B1 & _). split; [|split; [exact A2|split; [|split; [|split; [exact A5|split; [exact A6|split]]]]]].
  - split; [exact B1|]. split; [reflexivity|]. split; [repeat split; repeat constructor; cbn; lia|]. split; [cbn; lia|].
    do 3 (split; [lia|]). split; [now exists 4|]. split; [now exists 3|].
    split; [reflexivity|]. split; [reflexivity|]. split; [exists 1, [8]; split; [reflexivity|]; split; [reflexivity|repeat constructor; lia]|].
    apply seq_mode_ok with (b := 1) (c := 3) (xs := [8]); auto; try lia.
    + repeat split; repeat constructor; cbn; lia.
    + apply conv_local; try apply Z.divide_1_l; lia.
    + split; [reflexivity|]. intros [|j] Hj; [|cbn in Hj; lia]. cbn. split; [lia|]. unfold window_fits. intros. lia.
    + repeat constructor.
    + constructor; [|constructor]. destruct m; split; cbn; auto; lia.
  - split; [|split].
    + intros j i v Hv. unfold pg_weight. apply index_in_spec in Hv; [rewrite Hv|part_ok_tac]. apply teq_refl.
    + exact H2.
    + intros v Hv. cbn in Hv. decompose [or] Hv; subst; try contradiction; split; vm_compute; repeat constructor; discriminate.
  - split; [repeat constructor; simpl; lia|]. split; [cbn; tauto|]. split; [part_ok_tac|].
    split; [repeat constructor; lia|]. split; [reflexivity|]. split; [reflexivity|]. repeat split; repeat constructor; cbn; lia.
  - intros [|[|[|j]]] Hj; cbn in Hj; [| | |lia].
    + intros [|i] Hi; vm_compute in Hi; [|lia]. repeat split; intros; vm_compute; (reflexivity || discriminate).
    + intros [|[|i]] Hi; vm_compute in Hi; [| |lia]; repeat split; intros; vm_compute; (reflexivity || discriminate).
    + intros [|[|i]] Hi; vm_compute in Hi; [| |lia]; repeat split; intros; vm_compute; (reflexivity || discriminate).
  - do 3 (split; [destruct m; [congruence| | |]; vm_compute; reflexivity|]).
    split; [left; exists 0%nat; split; [cbn; lia|]; split; [reflexivity|now right]|]. destruct m; [congruence| | |]; vm_compute; reflexivity.
Qed.

Print Assumptions C59_feature_modes.
Print Assumptions C59_channel_modes.
Print Assumptions C59_general_modes.
Print Assumptions C59_modes_ready_refuted.
