(** The backward pass of batch normalisation on the workers. *)

From Verif Require Import Prelude SpecIndex SpecLayout SpecPartition ModelSlicing ProofSlicing ProofDecomposition ModelPartition ProofPartition
  Ring Tensor ModelCollectives ProofCollectives PropCollectives Blocks ModelHaloMixin ProofHaloMixin ModelRepartition ProofRepartition PropRepartition
  ModelConv ProofConv PropExchange ModelBatchNorm SpecBatchNorm ProofBatchNorm ModelBatchNormGrad.

Section Local.
  Context {R : CRing}.
  Add Ring R_ring : (rth R).

  Lemma pt_eqb d a b : zlist_eqb (pt d a) (pt d b) = (a =? b).
  Proof.
    destruct (Z.eqb_spec a b) as [->|H]; [now apply zlist_eqb_eq|].
    destruct (zlist_eqb (pt d a) (pt d b)) eqn:E; [|reflexivity]. apply zlist_eqb_eq in E. injection E as E. contradiction.
  Qed.

  Lemma unstretch_channels d (h : tensor R) : length (tshape h) = S (S d) ->
    forall ch, tat (unstretch (1 :: nth 1 (tshape h) 0 :: repeat 1 d) h) (pt d ch) = sumf (channel_entries (tshape h) ch) (tat h).
  Proof.
    intros Lh ch. cbn [unstretch tat]. unfold channel_entries. f_equal. apply filter_ext_in. intros j Hj. apply in_indices in Hj.
    rewrite (stretch_channels d) by auto. apply pt_eqb.
  Qed.

  Lemma common_same : forall s, common_shape s s = Some s.
  Proof. induction s as [|n s IH]; [reflexivity|]. cbn [common_shape]. now rewrite IH, Z.eqb_refl. Qed.

  Lemma pointwise_blocks (g : R -> R -> R) L idx G1 G2 t1 t2 : teq t1 (block L idx G1) -> teq t2 (block L idx G2) ->
    exists r, pointwise g t1 t2 = Ok r /\ teq r (block L idx (mkt (tshape G1) (fun i => g (tat G1 i) (tat G2 i)))).
  Proof.
    intros [S1 V1] [S2 V2]. cbn [block tshape tat] in *. unfold pointwise. rewrite S1, S2, common_same. eexists. split; [reflexivity|].
    split; [reflexivity|]. cbn [block tshape tat]. intros i Hi. rewrite stretch_valid, V1, V2 by (auto; congruence). reflexivity.
  Qed.
End Local.

Section Back.
  Context {R : CRing}.
  Add Ring R_ring2 : (rth R).
  Variable A : arith R.
  Variables (P : part) (d : nat) (L : layout) (dt : Z -> Z) (rg : Z -> bool).
  Hypothesis HP : part_ok P.
  Hypothesis LP : length (p_shape P) = S (S d).
  Hypothesis HL : layout_ok L.
  Hypothesis HW : layout_workers L = p_shape P.
  Notation e := (nth 1 L []).

  (** A tensor of channels with the sums of [F] over a worker's entries. *)
  Definition summed (F : list Z -> R) (idx : list Z) (t : tensor R) : Prop :=
    tshape t = 1 :: c_num L (nth 1 idx 0) :: repeat 1 d /\
    forall ch, 0 <= ch < c_num L (nth 1 idx 0) ->
      tat t (pt d ch) = sumf (channel_entries (block_shape L idx) ch) (fun p => F (vadd (block_lo L idx) p)).

  Lemma unstretch_summed F idx v (h : tensor R) (f : Z -> R) (m : tensor R) : worker_at P idx v -> teq h (block L idx (mkt (layout_shape L) F)) ->
    teq m (channels d e (nth 1 idx 0) f) -> summed F idx (unstretch (tshape m) h).
  Proof.
    intros Hv [Sh Vh] [Sm _]. cbn [block channels tshape tat] in *.
    pose proof (c_len P d L LP HW) as HcL. pose proof (valid_index_length _ _ (proj1 Hv)) as Hi.
    assert (Em : tshape m = 1 :: nth 1 (tshape h) 0 :: repeat 1 d) by (rewrite Sm, Sh, (c_shape P d L LP HW) by apply Hv; reflexivity).
    rewrite Em. split; [cbn [unstretch tshape]; rewrite <- Em; exact Sm|]. intros ch Hch.
    rewrite unstretch_channels by (rewrite Sh, block_shape_length; lia). rewrite Sh. apply sumf_ext. intros p Hp.
    unfold channel_entries in Hp. apply filter_In in Hp as [Hp _]. apply in_indices in Hp. apply Vh. now rewrite Sh.
  Qed.

  (** The channel of an entry of a sum. *)
  Lemma entry_channel idx ch p : valid_index (p_shape P) idx -> In p (channel_entries (block_shape L idx) ch) ->
    valid_index (block_shape L idx) p /\ nth 1 (vadd (block_lo L idx) p) 0 = c_off L (nth 1 idx 0) + ch.
  Proof.
    intros Hidx Hp. unfold channel_entries in Hp. apply filter_In in Hp as [Hp E]. apply in_indices in Hp. apply Z.eqb_eq in E.
    destruct (block_channel P d L LP HW idx p Hidx Hp) as [-> _]. split; [exact Hp|]. now rewrite E.
  Qed.

  (** Backward through a broadcast of a tensor of channels. *)
  Lemma broadcast_back (x g : Z -> tensor R) F :
    (forall c u, worker_at P (pt d c) u -> tshape (x u) = 1 :: c_num L c :: repeat 1 d) ->
    (forall u, In u (p_ranks P) -> nonneg_shape (tshape (x u)) /\ tshape (x u) <> []) ->
    (forall idx u, worker_at P idx u -> summed F idx (g u)) ->
    let b := broadcast_layer_backward (storage P d) P false false false true dt rg x g in
    (forall c s, worker_at P (pt d c) s -> exists t, b s = Ok t /\
       teq t (channels d e c (fun k => sumf (channel_entries (layout_shape L) k) F))) /\
    (forall v, In v (p_ranks P) -> exists t, b v = Ok t /\ nonneg_shape (tshape t) /\ tshape t <> []).
  Proof.
    intros Hx Hn Hg b.
    destruct (C15_proof (storage P d) P false false false true dt rg (st_bc P d HP LP)) as (src & S1 & S2 & HB).
    specialize (S2 (or_introl eq_refl)).
    assert (Hs : forall idx u, worker_at P idx u -> src u = wk P (pt d (nth 1 idx 0))).
    { intros idx u Hu. assert (Hin : In u (p_ranks P)) by (eapply worker_at_In; eauto).
      apply S2 in Hin. apply (st_paired P d HP LP) in Hin as (i & Hi & ->). now rewrite (worker_at_fun P i idx u HP Hi Hu). }
    assert (Hxs : shapes_ok (storage P d) P true x).
    { intros u Hu. destruct (Hn u) as [N1 N2]; [destruct Hu; auto; now apply (st_sub P d HP LP)|]. split; auto. }
    assert (Hgs : shapes_ok (storage P d) P true g).
    { intros u Hu. assert (Hu' : In u (p_ranks P)) by (destruct Hu; auto; now apply (st_sub P d HP LP)).
      destruct (worker_at_exists P u HP Hu') as [idx Hi]. destruct (Hg idx u Hi) as [-> _].
      split; [|intros _; discriminate]. apply (chan_shape_nonneg P d dt rg LP), (c_num_nonneg P d L LP HL HW). }
    assert (Hy : forall u, In u (p_ranks P) -> exists t, broadcast_layer (storage P d) P false false false true dt rg x u = Ok t /\ tshape t = tshape (x (src u))).
    { intros u Hu. destruct (C14_proof R (storage P d) P false false false true dt rg x (st_bc P d HP LP) (or_introl eq_refl) Hxs) as (B1 & _).
      destruct (B1 u Hu) as [_ B2]. destruct (B2 (src u) (S2 u Hu)) as (t & E & [St _]). eauto. }
    destruct (HB R x g Hxs Hgs) as (_ & H1 & H2 & _).
    { intros u Hu. destruct (Hy u Hu) as (t & -> & St). cbn [val]. rewrite St. destruct (worker_at_exists P u HP Hu) as [idx Hi].
      rewrite (Hs idx u Hi). rewrite (Hx (nth 1 idx 0)) by (apply wk_worker; auto; apply (st_valid P d LP), Hi).
      apply (Hg idx u Hi). }
    fold b in H1, H2.
    assert (B : forall c s, worker_at P (pt d c) s -> exists t, b s = Ok t /\
       teq t (channels d e c (fun k => sumf (channel_entries (layout_shape L) k) F))).
    { intros c s Hc. destruct (H1 s) as (t & Et & St & Vt); [eapply worker_at_In; apply (st_worker P d HP LP); eauto|].
      exists t. split; [exact Et|]. rewrite (Hx c s Hc) in St, Vt. apply channels_intro; [exact St|]. intros ch Hch.
      assert (Hc0 : 0 <= c) by (destruct Hc as [Hi _]; apply (idx_nonneg P d L LP HW) in Hi; exact (proj1 Hi)).
      rewrite Vt by (apply channel_index; eauto).
      pose proof (entries_split P d L dt rg LP HL HW (mkt (layout_shape L) F) c ch Hc0 Hch) as ES. cbn [tat] in ES. fold (c_off L c). rewrite ES.
      rewrite sumf_filter, (ranks_wk P HP), sumf_map. apply sumf_ext. intros idx Hidx.
      apply in_range_index in Hidx. pose proof (wk_worker P idx HP Hidx) as Hw. rewrite (Hs _ _ Hw).
      assert (Es : s = wk P (pt d c)) by (symmetry; now apply worker_wk). rewrite Es. destruct (Z.eqb_spec (nth 1 idx 0) c) as [Ec|Ec].
      - rewrite Ec, Z.eqb_refl. destruct (Hg _ _ Hw) as [_ ->]; [reflexivity|now rewrite Ec].
      - destruct (Z.eqb_spec (wk P (pt d (nth 1 idx 0))) (wk P (pt d c))) as [E|]; [|reflexivity]. exfalso. apply Ec.
        apply wk_inj in E; auto; [now injection E|now apply (st_valid P d LP)|apply Hc]. }
    split; [exact B|]. intros v Hv. destruct (in_dec Z.eq_dec v (p_ranks (storage P d))) as [Hin|Hni].
    - destruct (worker_at_exists _ v (st_ok P d HP LP) Hin) as [idx Hi]. destruct (st_index P d LP idx v Hi) as (c & -> & _).
      apply (st_worker P d HP LP) in Hi. destruct (B c v Hi) as (t & Et & [St _]). exists t. split; [exact Et|]. rewrite St. cbn [channels tshape].
      split; [apply (chan_shape_nonneg P d dt rg LP), (c_num_nonneg P d L LP HL HW)|discriminate].
    - destruct (H2 v Hni Hv) as (t & Et & St). exists t. split; [exact Et|]. rewrite St.
      split; [|discriminate]. destruct (worker_at_exists P v HP Hv) as [idx Hi]. destruct (Hg idx v Hi) as [So _].
      unfold batch_of. rewrite So. cbn [hd]. repeat constructor; lia.
  Qed.

  Variables (c : bncall R) (n : Z).
  Hypothesis Hvol : forall u, In u (p_ranks P) -> bn_volume P c u = n.

  (** Backward through [_compute_mean]. *)
  Lemma mean_back (T : tensor R) (t g : Z -> tensor R) F : holds_blocks P L T t ->
    (forall idx u, worker_at P idx u -> summed F idx (g u)) ->
    forall idx v, worker_at P idx v -> exists r, mean_backward A P dt rg c (storage P d) t g v = Ok r /\
      teq r (block L idx (mkt (layout_shape L) (fun i => adiv A (sumf (channel_entries (layout_shape L) (nth 1 i 0)) F) (rint n)))).
  Proof.
    intros HT Hg idx v Hv. destruct (sums_ok P d L dt rg HP LP HL HW T t HT) as [F1 F2].
    set (x := fun u => tmap (fun a => adiv A a (rint (bn_volume P c u))) (value_or (channel_sums P dt rg (storage P d) t u))).
    destruct (broadcast_back x g F) as [B1 B2].
    { intros k u Hu. destruct (F1 k u Hu) as (r & Er & Sr & _). unfold x. rewrite Er. exact Sr. }
    { intros u Hu. destruct (F2 u Hu) as (r & Er & Nr & Ne). unfold x. rewrite Er. cbn [value_or tmap tshape]. auto. }
    { exact Hg. }
    unfold mean_backward. assert (EB : channel_sums_grad A P dt rg c (storage P d) t g = broadcast_layer_backward (storage P d) P false false false true dt rg x g) by reflexivity.
    rewrite EB. set (b := broadcast_layer_backward (storage P d) P false false false true dt rg x g) in *. clear EB.
    destruct (B2 v) as (bv & Ebv & _); [eapply worker_at_In; eauto|]. rewrite Ebv. cbn [rbind].
    set (w := fun u => tmap (fun a => adiv A a (rint (bn_volume P c u))) (value_or (b u))).
    destruct (C16_proof P (storage P d) false false false true dt rg (st_rd P d HP LP)) as (dst & D1 & D2 & HC).
    specialize (D2 (or_introl eq_refl)).
    assert (Hd : forall i u, worker_at P i u -> dst u = wk P (pt d (nth 1 i 0))).
    { intros i u Hu. symmetry. apply D2; [eapply worker_at_In; eauto|]. apply (st_paired P d HP LP). eauto. }
    assert (Ho : forall i u, worker_at P i u -> tshape (own P t u) = 1 :: c_num L (nth 1 i 0) :: repeat 1 d).
    { intros i u Hu. apply (own_ok P d L dt rg LP HW T t HT i u Hu). }
    destruct (HC R (own P t) (own_shapes P d L dt rg HP LP HL HW T t HT)) as (_ & _ & _ & HD).
    { intros s s' Hs Hs' E. destruct (worker_at_exists P s HP Hs) as [i Hi], (worker_at_exists P s' HP Hs') as [i' Hi'].
      rewrite (Hd i s Hi), (Hd i' s' Hi') in E. apply wk_inj in E; [|exact HP|apply (st_valid P d LP), Hi|apply (st_valid P d LP), Hi'].
      injection E as E. rewrite (Ho i s Hi), (Ho i' s' Hi'). now rewrite E. }
    assert (Hw : forall u, In u (p_ranks P) -> nonneg_shape (tshape (w u)) /\ tshape (w u) <> []).
    { intros u Hu. destruct (B2 u Hu) as (r & Er & Nr & Ne). unfold w. rewrite Er. cbn [value_or tmap tshape]. auto. }
    destruct (HD w) as (H1 & _).
    { intros u Hu. destruct (Hw u) as [N1 N2]; [destruct Hu; auto; now apply (st_sub P d HP LP)|]. split; auto. }
    { intros u Hu. destruct (worker_at_exists _ u (st_ok P d HP LP) Hu) as [i Hi]. destruct (st_index P d LP i u Hi) as (k & -> & _).
      apply (st_worker P d HP LP) in Hi. destruct (F1 k u Hi) as (r & Er & Sr & _). unfold channel_sums in Er. fold (own P t) in Er.
      change (fun u0 => value_or (local_sums P (t u0))) with (own P t) in Er. rewrite Er. cbn [val]. rewrite Sr.
      destruct (B1 k u Hi) as (r' & Er' & [Sr' _]). unfold w. rewrite Er'. exact Sr'. }
    destruct (H1 v) as (r & Er & Sr & Vr); [eapply worker_at_In; eauto|].
    change (fun u => value_or (local_sums P (t u))) with (own P t). change (fun u => tmap (fun a => adiv A a (rint (bn_volume P c u))) (value_or (b u))) with w.
    rewrite Er. cbn [rbind]. eexists. split; [reflexivity|].
    assert (Hk : worker_at P (pt d (nth 1 idx 0)) (wk P (pt d (nth 1 idx 0)))) by (apply wk_worker; auto; apply (st_valid P d LP), Hv).
    rewrite (Hd idx v Hv) in Sr, Vr. destruct (B1 _ _ Hk) as (q & Eq & Hq). unfold w in Sr, Vr. rewrite Eq in Sr, Vr. cbn [value_or tmap tshape tat] in Sr, Vr.
    pose proof Hq as [Sq _]. cbn [channels tshape] in Sq. pose proof HT as [_ HTB]. destruct (HTB idx v Hv) as [St _]. cbn [block tshape] in St.
    pose proof (c_len P d L LP HW) as HcL. pose proof (valid_index_length _ _ (proj1 Hv)) as Hi.
    split; [exact St|]. cbn [expand block tshape tat]. rewrite St, Sr, Sq. intros p Hp.
    change (nth (Z.to_nat (nth 1 idx 0)) e 0) with (c_num L (nth 1 idx 0)).
    rewrite <- (c_shape P d L LP HW idx) by apply Hv. rewrite (stretch_channels d) by (auto; rewrite block_shape_length; lia).
    destruct (block_channel P d L LP HW idx p (proj1 Hv) Hp) as [E1 R1].
    rewrite Vr by (rewrite Sr, Sq; apply channel_index; eauto). rewrite (channels_at d e _ _ _ _ Hq) by exact R1.
    rewrite Hvol by (eapply worker_at_In; exact Hk). rewrite E1. reflexivity.
  Qed.
End Back.
