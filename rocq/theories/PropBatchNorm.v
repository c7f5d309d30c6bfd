(** Distributed batch normalisation: C34. *)

From Coq Require Import QArith Qcanon.
From Verif Require Import Prelude SpecIndex SpecLayout SpecPartition ModelSlicing ProofSlicing ProofDecomposition ModelPartition ProofPartition
  Ring Tensor ModelCollectives Blocks ProofRepartition PropRepartition ModelBatchNorm SpecBatchNorm ProofBatchNorm.

Open Scope Z_scope.

(** A layout of the inputs for [P] with the channels cut as the layer cuts its
    parameters; batch and features may be cut in any way. *)
Definition fits (P : part) (num_features : Z) (L : layout) : Prop :=
  layout_ok L /\ layout_workers L = p_shape P /\ nth 1 L [] = balanced1 num_features (nth 1 (p_shape P) 0).

(** The workers with first index in every dimension but the second hold the
    parameter [f] of the channels; what the others hold has a dimension. *)
Definition parameter {R : CRing} (P : part) (num_features : Z) (f : Z -> R) (t : Z -> tensor R) : Prop :=
  let d := (length (p_shape P) - 2)%nat in
  (forall c v, worker_at P (0 :: c :: repeat 0 d) v -> teq (t v) (channels d (balanced1 num_features (nth 1 (p_shape P) 0)) c f)) /\
  (forall v, In v (p_ranks P) -> nonneg_shape (tshape (t v)) /\ tshape (t v) <> []).

(** The call [c] is the call [s] distributed over [P]. *)
Definition distributes {R : CRing} (P : part) (num_features : Z) (affine : bool) (c : bncall R) (s : step R) : Prop :=
  k_training c = s_training s /\ fits P num_features (s_layout s) /\ holds_blocks P (s_layout s) (s_input s) (k_input c) /\
  (affine = true -> parameter P num_features (s_gamma s) (k_gamma c) /\ parameter P num_features (s_beta s) (k_beta c)).

(** A state of the workers' statistics: each holds those of its channels. *)
Definition tracks {R : CRing} (P : part) (num_features : Z) (momentum : option R) (q : running R) (st : Z -> bnstate R) : Prop :=
  let d := (length (p_shape P) - 2)%nat in
  let e := balanced1 num_features (nth 1 (p_shape P) 0) in
  forall idx v, worker_at P idx v ->
    teq (running_mean (st v)) (channels d e (nth 1 idx 0) (q_mean q)) /\
    teq (running_var (st v)) (channels d e (nth 1 idx 0) (q_var q)) /\
    (momentum = None -> inputs_seen (st v) = q_seen q).

(** Division undoes multiplication and no positive integer is zero. *)
Definition divides {R : CRing} (A : arith R) : Prop :=
  (forall a b, b <> rzero -> rmul (adiv A a b) b = a) /\ (forall n, 0 < n -> @rint R n <> rzero).

(** The mean and variance used in training, or without tracking, are the global
    ones for every state of the statistics of the right shape. *)
Definition C34_statistics_statement : Prop :=
  forall (R : CRing) (A : arith R) P num_features momentum track dt rg q st (c : bncall R) L G,
  part_ok P -> (2 <= length (p_shape P))%nat -> 0 <= num_features ->
  fits P num_features L -> holds_blocks P L G (k_input c) -> tracks P num_features momentum q st ->
  k_training c = true \/ track = false ->
  forall idx v, worker_at P idx v -> exists m s st',
    bn_statistics A P num_features momentum track dt rg st c v = Ok (m, s, st') /\
    let d := (length (p_shape P) - 2)%nat in
    teq m (channels d (nth 1 L []) (nth 1 idx 0) (channel_mean A G)) /\
    teq s (channels d (nth 1 L []) (nth 1 idx 0) (channel_var A G)).

(** The layer, from its construction on, follows a sequential layer that averages
    [averaged] into its running variance. *)
Definition C34_statement (averaged : forall R : CRing, arith R -> Z -> R -> R) (momenta : forall R : CRing, arith R -> option R -> Prop) : Prop :=
  forall (R : CRing) (A : arith R) P num_features eps momentum affine track dt rg (calls : list (bncall R)) (steps : list (step R)),
  part_ok P -> (2 <= length (p_shape P))%nat -> 0 <= num_features ->
  momenta R A momentum ->
  (momentum = None -> divides A) ->
  Forall2 (distributes P num_features affine) calls steps ->
  let '(ys, st) := bn_run A P num_features eps momentum affine track dt rg (bn_start P num_features) calls in
  let '(Ys, q) := sequential A eps momentum affine track (averaged R A) fresh steps in
  length ys = length calls /\ length Ys = length calls /\
  (forall k y Y s idx v, nth_error ys k = Some y -> nth_error Ys k = Some Y -> nth_error steps k = Some s -> worker_at P idx v ->
     exists t, y v = Ok t /\ teq t (block (s_layout s) idx Y)) /\
  tracks P num_features momentum q st.

(** What distdl averages, and what torch does. *)
Definition biased (R : CRing) (A : arith R) (n : Z) (v : R) : R := v.
Definition unbiased (R : CRing) (A : arith R) (n : Z) (v : R) : R := adiv A (rmul v (rint n)) (rint (n - 1)).
Definition nonzero (R : CRing) (A : arith R) (m : option R) : Prop := forall a, m = Some a -> azero A a = false.
Definition any (R : CRing) (A : arith R) (m : option R) : Prop := True.

(** ** Proofs *)

Section Field.
  Context {R : CRing}.
  Add Ring R_ring : (rth R).
  Variable A : arith R.
  Hypothesis HA : divides A.

  Lemma rint_succ n : 0 <= n -> @rint R (n + 1) = radd (rint n) rone.
  Proof.
    intros Hn. destruct n as [|p|p]; [cbn; ring| |lia]. change (Zpos p + 1) with (Zpos (p + 1)). rewrite Pos.add_1_r.
    unfold rint. rewrite Pos.iter_succ. ring.
  Qed.
  Lemma cancel (a b c : R) : c <> rzero -> rmul a c = rmul b c -> a = b.
  Proof.
    intros Hc E. destruct HA as [H1 _]. pose proof (H1 rone c Hc) as E1.
    transitivity (rmul a (rmul (adiv A rone c) c)); [rewrite E1; ring|].
    transitivity (rmul b (rmul (adiv A rone c) c)); [|rewrite E1; ring].
    transitivity (rmul (rmul a c) (adiv A rone c)); [ring|]. rewrite E. ring.
  Qed.
  Lemma cumulative n old new : 0 <= n ->
    adiv A (radd new (rmul (rint n) old)) (rint (n + 1)) = average (adiv A rone (rint (n + 1))) old new.
  Proof.
    intros Hn. destruct HA as [H1 H2]. assert (Hc : @rint R (n + 1) <> rzero) by (apply H2; lia). apply (cancel _ _ _ Hc).
    rewrite H1 by auto. unfold average. pose proof (H1 rone _ Hc) as E1. set (f := adiv A rone (rint (n + 1))) in *.
    transitivity (radd (rmul (rsub (rint (n + 1)) (rmul f (rint (n + 1)))) old) (rmul (rmul f (rint (n + 1))) new)); [|ring].
    rewrite E1, rint_succ by auto. ring.
  Qed.
End Field.

Section Steps.
  Context {R : CRing}.
  Variable A : arith R.
  Variables (P : part) (num_features : Z) (eps : R) (momentum : option R) (affine track : bool) (dt : Z -> Z) (rg : Z -> bool).
  Hypothesis HP : part_ok P.
  Hypothesis LP2 : (2 <= length (p_shape P))%nat.
  Hypothesis Hnf : 0 <= num_features.
  Notation d := (length (p_shape P) - 2)%nat.
  Notation e := (balanced1 num_features (nth 1 (p_shape P) 0)).

  Lemma LPd : length (p_shape P) = S (S d). Proof. lia. Qed.
  Lemma P1_pos : 0 < nth 1 (p_shape P) 0.
  Proof. destruct HP as (_ & _ & Hp & _). unfold pos_shape in Hp. rewrite Forall_forall in Hp. apply Hp, nth_In. exact LP2. Qed.

  Lemma fits_channels L : fits P num_features L -> nth 1 (layout_shape L) 0 = num_features.
  Proof.
    intros (_ & HW & He). pose proof (c_len P d L LPd HW) as HcL. unfold layout_shape.
    rewrite nth_indep with (d' := zsum []) by (rewrite map_length; lia). rewrite map_nth, He.
    rewrite <- (firstn_all (balanced1 _ _)), balanced1_length, balanced1_prefix by (pose proof P1_pos; lia).
    apply start1_P, P1_pos.
  Qed.

  (** The statistics after a call in training. *)
  Lemma update_ok q G st c m s : momentum <> None \/ (divides A /\ inputs_seen st = q_seen q /\ 0 <= q_seen q) ->
    (forall a, momentum = Some a -> azero A a = false) ->
    teq (running_mean st) (channels d e c (q_mean q)) -> teq (running_var st) (channels d e c (q_var q)) ->
    teq m (channels d e c (channel_mean A G)) -> teq s (channels d e c (channel_var A G)) ->
    let q' := after A momentum true (biased R A) true q G in
    exists st', update_running A momentum st m s = Ok st' /\
      teq (running_mean st') (channels d e c (q_mean q')) /\ teq (running_var st') (channels d e c (q_var q')) /\
      (momentum = None -> inputs_seen st' = q_seen q').
  Proof.
    intros Hm Ha Hrm Hrv Hmm Hs. unfold update_running. destruct momentum as [a|].
    - rewrite (Ha a eq_refl).
      destruct (pointwise_both d e c (fun old new => radd (rmul (rsub rone a) old) (rmul a new)) _ _ _ _ Hrm Hmm) as (r1 & -> & H1).
      destruct (pointwise_both d e c (fun old new => radd (rmul (rsub rone a) old) (rmul a new)) _ _ _ _ Hrv Hs) as (r2 & -> & H2).
      cbn [rbind]. eexists. split; [reflexivity|]. cbn [running_mean running_var inputs_seen]. split; [exact H1|]. split; [exact H2|discriminate].
    - destruct Hm as [Hm|(HA & Hseen & Hq)]; [congruence|].
      set (g := fun new old => adiv A (radd new (rmul (rint (inputs_seen st)) old)) (rint (inputs_seen st + 1))).
      destruct (pointwise_both d e c g _ _ _ _ Hmm Hrm) as (r1 & -> & H1).
      destruct (pointwise_both d e c g _ _ _ _ Hs Hrv) as (r2 & -> & H2).
      cbn [rbind]. eexists. split; [reflexivity|]. cbn [running_mean running_var inputs_seen].
      assert (Eg : forall new old, g new old = average (factor A None q) old new).
      { intros new old. unfold g, factor. rewrite Hseen. now apply cumulative. }
      split; [|split].
      + eapply teq_trans; [exact H1|]. split; [reflexivity|]. intros i _. cbn [channels tat]. rewrite Eg. reflexivity.
      + eapply teq_trans; [exact H2|]. split; [reflexivity|]. intros i _. cbn [channels tat]. rewrite Eg. reflexivity.
      + intros _. cbn [q_seen after andb]. now rewrite Hseen.
  Qed.

  Variables (c : bncall R) (s : step R) (q : running R) (st : Z -> bnstate R).
  Hypothesis Hc : distributes P num_features affine c s.
  Hypothesis Hst : tracks P num_features momentum q st.
  Notation L := (s_layout s).
  Notation G := (s_input s).

  (** The mean and variance used, for every update that succeeds. *)
  Lemma statistics_ok idx v : worker_at P idx v ->
    (k_training c = true -> track = true -> forall m w, 
       teq m (channels d e (nth 1 idx 0) (channel_mean A G)) -> teq w (channels d e (nth 1 idx 0) (channel_var A G)) ->
       exists st', update_running A momentum (st v) m w = Ok st') ->
    exists m w st', bn_statistics A P num_features momentum track dt rg st c v = Ok (m, w, st') /\
      teq m (channels d e (nth 1 idx 0) (fst (uses A track (s_training s) q G))) /\
      teq w (channels d e (nth 1 idx 0) (snd (uses A track (s_training s) q G))) /\
      (if k_training c && track
       then teq m (channels d e (nth 1 idx 0) (channel_mean A G)) /\ teq w (channels d e (nth 1 idx 0) (channel_var A G)) /\
            update_running A momentum (st v) m w = Ok st'
       else st' = st v).
  Proof.
    intros Hv HU. destruct Hc as (Ht & HF & HB & _). pose proof HF as (HL & HW & He). destruct (Hst idx v Hv) as (T1 & T2 & T3).
    unfold bn_statistics, sum_partition. fold (sum_partition P). rewrite (st_part P d HP LPd). cbn [rbind].
    rewrite (volume_ok P L HP HL HW G _ HB idx v Hv). cbn [rbind]. rewrite (fits_channels L HF), Z.eqb_refl. cbn [negb].
    unfold uses. rewrite <- Ht. destruct (negb (k_training c) && track) eqn:Ee.
    - exists (running_mean (st v)), (running_var (st v)), (st v). split; [reflexivity|]. cbn [fst snd]. split; [exact T1|]. split; [exact T2|].
      destruct (k_training c), track; try discriminate. reflexivity.
    - pose proof (mean_channels A P d L dt rg HP LPd HL HW G _ HB idx v Hv) as (m & Em & Hm). rewrite He in Hm.
      pose proof (var_channels A P d L dt rg HP LPd HL HW G _ HB idx v Hv) as (w & Ew & Hw). rewrite He in Hw.
      change (fun u => match global_shape P (k_input c) u with Ok s0 => feature_volume s0 | Raise _ => 0 end) with (vol P (k_input c)).
      rewrite Em. cbn [rbind]. rewrite Ew. cbn [rbind]. destruct (k_training c && track) eqn:Et.
      + apply andb_true_iff in Et as [Et1 Et2]. destruct (HU Et1 Et2 m w Hm Hw) as [st' Eu]. rewrite Eu. cbn [rbind].
        exists m, w, st'. cbn [fst snd]. repeat (split; [solve [auto]|]). exact Eu.
      + exists m, w, (st v). cbn [fst snd]. repeat (split; [solve [auto]|]). reflexivity.
  Qed.

  (** The output, from the mean and variance used. *)
  Lemma output_ok idx v m w st' : worker_at P idx v ->
    bn_statistics A P num_features momentum track dt rg st c v = Ok (m, w, st') ->
    teq m (channels d e (nth 1 idx 0) (fst (uses A track (s_training s) q G))) ->
    teq w (channels d e (nth 1 idx 0) (snd (uses A track (s_training s) q G))) ->
    exists y, bn_forward A P num_features eps momentum affine track dt rg st c v = Ok (y, st') /\
      teq y (block L idx (normalised A eps affine track (s_training s) (s_gamma s) (s_beta s) q G)).
  Proof.
    intros Hv Es Hm Hw.
    unfold bn_forward. rewrite (st_part P d HP LPd). cbn [rbind]. rewrite Es. cbn [rbind].
    destruct Hc as (Ht & HF & HB & Haff). pose proof HF as (HL & HW & He).
    assert (X : forall G0 (g : R -> R -> R) f t m0, teq t (block L idx G0) -> teq m0 (channels d e (nth 1 idx 0) f) ->
              exists r, pointwise g t m0 = Ok r /\ teq r (block L idx (mkt (tshape G0) (fun i => g (tat G0 i) (f (nth 1 i 0)))))).
    { intros G0 g f t m0 H1 H2. rewrite <- He in H2. exact (block_channels P d L dt rg LPd HW G0 g f idx v t m0 Hv H1 H2). }
    destruct (X G rsub _ _ _ (proj2 HB idx v Hv) Hm) as (r1 & E1 & H1). rewrite E1. cbn [rbind].
    destruct (X _ (fun a b => adiv A a (asqrt A (radd b eps))) _ _ _ H1 Hw) as (r2 & E2 & H2). rewrite E2. cbn [rbind tshape tat] in *.
    unfold normalised. destruct (uses A track (s_training s) q G) as [um uv]. cbn [fst snd] in *. destruct affine.
    - destruct (Haff eq_refl) as [[Ga Gb] [Ba Bb]]. 
      assert (Y : forall (t : Z -> tensor R) f, (forall c v, worker_at P (0 :: c :: repeat 0 d) v -> teq (t v) (channels d e c f)) ->
                 (forall v, In v (p_ranks P) -> nonneg_shape (tshape (t v)) /\ tshape (t v) <> []) ->
                 exists r, broadcast_layer (storage P d) P false false false true dt rg t v = Ok r /\ teq r (channels d e (nth 1 idx 0) f)).
      { intros t f Q1 Q2. rewrite <- He in Q1 |- *. exact (affine_channels P d L dt rg HP LPd t f idx v Q1 Q2 Hv). }
      destruct (Y _ _ Ga Gb) as (gm & -> & Hg). destruct (Y _ _ Ba Bb) as (bt & -> & Hb). cbn [rbind].
      rewrite pointwise_sym. destruct (X _ (fun u v => rmul v u) _ _ _ H2 Hg) as (r3 & -> & H3). cbn [rbind].
      destruct (X _ radd _ _ _ H3 Hb) as (r4 & -> & H4). cbn [rbind tshape tat] in *.
      exists r4. split; [reflexivity|exact H4].
    - exists r2. split; [reflexivity|exact H2].
  Qed.

  Hypothesis Hmom : forall a, momentum = Some a -> azero A a = false.
  Hypothesis Hdiv : momentum = None -> divides A.
  Hypothesis Hseen : 0 <= q_seen q.

  Lemma update_step idx v m w : worker_at P idx v -> k_training c = true -> track = true ->
    teq m (channels d e (nth 1 idx 0) (channel_mean A G)) -> teq w (channels d e (nth 1 idx 0) (channel_var A G)) ->
    let q' := after A momentum track (biased R A) (s_training s) q G in
    exists st', update_running A momentum (st v) m w = Ok st' /\
      teq (running_mean st') (channels d e (nth 1 idx 0) (q_mean q')) /\ teq (running_var st') (channels d e (nth 1 idx 0) (q_var q')) /\
      (momentum = None -> inputs_seen st' = q_seen q').
  Proof.
    intros Hv Ht1 Ht2 Hm Hw. destruct (Hst idx v Hv) as (T1 & T2 & T3). destruct Hc as (Ht & _). rewrite <- Ht, Ht1, Ht2.
    apply update_ok; auto. destruct momentum; [left; discriminate|right]. auto.
  Qed.

  Lemma forward_ok idx v : worker_at P idx v ->
    let q' := after A momentum track (biased R A) (s_training s) q G in
    exists y st', bn_forward A P num_features eps momentum affine track dt rg st c v = Ok (y, st') /\
      teq y (block L idx (normalised A eps affine track (s_training s) (s_gamma s) (s_beta s) q G)) /\
      teq (running_mean st') (channels d e (nth 1 idx 0) (q_mean q')) /\ teq (running_var st') (channels d e (nth 1 idx 0) (q_var q')) /\
      (momentum = None -> inputs_seen st' = q_seen q').
  Proof.
    intros Hv q'. pose proof (Hst idx v Hv) as (T1 & T2 & T3).
    destruct (statistics_ok idx v Hv) as (m & w & st' & Es & Hm & Hw & Hu).
    { intros Ht1 Ht2 m w Hm Hw. destruct (update_step idx v m w Hv Ht1 Ht2 Hm Hw) as (st' & E & _). eauto. }
    assert (Hst' : teq (running_mean st') (channels d e (nth 1 idx 0) (q_mean q')) /\ teq (running_var st') (channels d e (nth 1 idx 0) (q_var q')) /\
      (momentum = None -> inputs_seen st' = q_seen q')).
    { destruct (k_training c && track) eqn:Et.
      - apply andb_true_iff in Et as [Et1 Et2]. destruct Hu as (Hm' & Hw' & Eu).
        destruct (update_step idx v m w Hv Et1 Et2 Hm' Hw') as (st2 & E2 & H2). rewrite Eu in E2. inv E2. exact H2.
      - subst st'. unfold q', after. destruct Hc as (<- & _). rewrite Et. auto. }
    destruct (output_ok idx v m w st' Hv Es Hm Hw) as (y & E & Hy). exists y, st'. repeat (split; [assumption|]). exact Hst'.
  Qed.
End Steps.

Lemma start_tracks (R : CRing) P num_features (momentum : option R) : part_ok P -> (2 <= length (p_shape P))%nat -> 0 <= num_features ->
  tracks P num_features momentum fresh (bn_start P num_features).
Proof.
  intros HP LP2 Hn. unfold tracks. intros idx v Hv. unfold bn_start. rewrite (proj2 (index_in_spec P v idx HP) Hv).
  assert (E : internal_shape (length (p_shape P)) (local_num_features P num_features idx) =
              1 :: nth (Z.to_nat (nth 1 idx 0)) (balanced1 num_features (nth 1 (p_shape P) 0)) 0 :: repeat 1 (length (p_shape P) - 2)).
  { pose proof (proj1 Hv) as Hi. pose proof (P1_pos P HP LP2) as HP1. unfold local_num_features, internal_shape, compute_stop_index, compute_start_index, compute_subshape.
    destruct (p_shape P) as [|a [|b r]] eqn:Es; cbn [length] in LP2; try lia.
    apply valid_index_cons_inv in Hi as (i & t & -> & Hi0 & Hi). apply valid_index_cons_inv in Hi as (j & t' & -> & Hj & Hi).
    cbn [length repeat upd map3 map2 nth]. cbn [nth] in HP1. rewrite balanced1_nth by lia. replace (S (S (length r)) - 2)%nat with (length r) by lia.
    do 2 f_equal. lia. }
  rewrite E. cbn [running_mean running_var inputs_seen fresh q_mean q_var q_seen].
  split; [split; [reflexivity|]; intros i _; reflexivity|]. split; [split; [reflexivity|]; intros i _; reflexivity|]. reflexivity.
Qed.

Lemma C34_proof : C34_statement biased nonzero.
Proof.
  intros R A P num_features eps momentum affine track dt rg calls steps HP LP2 Hn Hmom Hdiv HF.
  assert (Hq : 0 <= q_seen (@fresh R)) by (cbn; lia).
  pose proof (start_tracks R P num_features momentum HP LP2 Hn) as Hst. revert Hst Hq.
  generalize (@bn_start R P num_features) as st, (@fresh R) as q. induction HF as [|c s calls steps Hc HF IH]; intros st q Hst Hq.
  - cbn [bn_run sequential]. split; [reflexivity|]. split; [reflexivity|]. split; [intros [|k]; discriminate|exact Hst].
  - cbn [bn_run sequential].
    set (q' := after A momentum track (biased R A) (s_training s) q (s_input s)).
    set (y := fun v => match bn_forward A P num_features eps momentum affine track dt rg st c v with Ok (t, _) => Ok t | Raise er => Raise er end).
    set (st' := fun v => match bn_forward A P num_features eps momentum affine track dt rg st c v with Ok (_, s0) => s0 | Raise _ => st v end).
    assert (B : forall idx v, worker_at P idx v -> (exists t, y v = Ok t /\
               teq t (block (s_layout s) idx (normalised A eps affine track (s_training s) (s_gamma s) (s_beta s) q (s_input s)))) /\
      teq (running_mean (st' v)) (channels (length (p_shape P) - 2) (balanced1 num_features (nth 1 (p_shape P) 0)) (nth 1 idx 0) (q_mean q')) /\
      teq (running_var (st' v)) (channels (length (p_shape P) - 2) (balanced1 num_features (nth 1 (p_shape P) 0)) (nth 1 idx 0) (q_var q')) /\
      (momentum = None -> inputs_seen (st' v) = q_seen q')).
    { intros idx v Hv.
      destruct (forward_ok A P num_features eps momentum affine track dt rg HP LP2 c s q st Hc Hst Hmom Hdiv Hq idx v Hv) as (t & s' & E & H1 & H2).
      unfold y, st'. rewrite E. split; [eauto|exact H2]. }
    specialize (IH st' q'). destruct (bn_run _ _ _ _ _ _ _ _ _ st' calls) as [ys stf] eqn:Er.
    destruct (sequential _ _ _ _ _ _ q' steps) as [Ys qf] eqn:Eq.
    destruct IH as (L1 & L2 & H1 & H2).
    + intros idx v Hv. apply (B idx v Hv).
    + unfold q', after. destruct (s_training s && track); cbn [q_seen]; lia.
    + cbn [length]. split; [lia|]. split; [lia|]. split; [|exact H2].
      intros [|k] y0 Y0 s0 idx v E1 E2 E3 Hv; cbn [nth_error] in E1, E2, E3.
      * inv E1. inv E2. inv E3. apply (B idx v Hv).
      * eapply H1; eauto.
Qed.

Theorem C34_histories_partial : C34_statement biased nonzero.
Proof. exact C34_proof. Qed.

Lemma C34_statistics_proof : C34_statistics_statement.
Proof.
  intros R A P num_features momentum track dt rg q st c L G HP LP2 Hn HF HB Hst Ht idx v Hv.
  assert (Hc : distributes P num_features false c (mkstep (k_training c) G (fun _ => rzero) (fun _ => rzero) L)).
  { split; [reflexivity|]. split; [exact HF|]. split; [exact HB|discriminate]. }
  destruct (statistics_ok A P num_features momentum false track dt rg HP LP2 c _ q st Hc Hst idx v Hv) as (m & w & st' & E & Hm & Hw & _).
  - intros Ht1 Ht2 m w Hm Hw. destruct (Hst idx v Hv) as (T1 & T2 & _). unfold update_running.
    assert (C : exists st', (let* m0 := pointwise (fun new old => adiv A (radd new (rmul (rint (inputs_seen (st v))) old)) (rint (inputs_seen (st v) + 1))) m (running_mean (st v)) in
       let* s := pointwise (fun new old => adiv A (radd new (rmul (rint (inputs_seen (st v))) old)) (rint (inputs_seen (st v) + 1))) w (running_var (st v)) in
       Ok (mkbn m0 s (inputs_seen (st v) + 1))) = Ok st').
    { edestruct (@pointwise_both R) as (r1 & -> & _); [exact Hm|exact T1|].
      edestruct (@pointwise_both R) as (r2 & -> & _); [exact Hw|exact T2|]. cbn [rbind]. eauto. }
    destruct momentum as [a|]; [|exact C]. destruct (azero A a); [exact C|].
    edestruct (@pointwise_both R) as (r1 & -> & _); [exact T1|exact Hm|].
    edestruct (@pointwise_both R) as (r2 & -> & _); [exact T2|exact Hw|]. cbn [rbind]. eauto.
  - exists m, w, st'. split; [exact E|]. cbn [s_training s_input] in Hm, Hw. destruct HF as (_ & _ & ->).
    unfold uses in Hm, Hw. destruct (negb (k_training c) && track) eqn:Eb; [|auto].
    destruct Ht as [Ht|Ht]; rewrite Ht in Eb; [discriminate|]. now rewrite andb_false_r in Eb.
Qed.

Theorem C34_statistics : C34_statistics_statement.
Proof. exact C34_statistics_proof. Qed.

(** ** Rational numbers *)

Definition Qring : CRing := mkCRing Qc 0%Qc 1%Qc Qcplus Qcmult Qcminus Qcopp Qcrt.
(** The square root is not rational; its argument stands in for it. *)
Definition Qarith : arith Qring := mkarith Qring Qcdiv (fun a => a) (fun a => if Qc_eq_dec a 0 then true else false).

Lemma Qdivides : @divides Qring Qarith.
Proof.
  split.
  - intros a b Hb. cbn [adiv Qarith rmul Qring]. cbn [rzero Qring] in Hb. now apply Qcmult_div_r || (rewrite Qcmult_comm; now apply Qcmult_div_r).
  - intros n Hn. destruct n as [|p|p]; try lia. cbn [rint rzero Qring].
    assert (E : forall p, (0 < Pos.iter (@radd Qring rone) rzero p)%Qc).
    { intros p0. induction p0 as [|p0 IH] using Pos.peano_ind; [reflexivity|]. rewrite Pos.iter_succ. cbn [radd Qring rone] in *.
      set (z := Pos.iter _ _ p0) in *. apply Qclt_le_trans with (y := z); [exact IH|].
      rewrite <- (Qcplus_0_l z) at 1. apply Qcplus_le_compat; [discriminate|apply Qcle_refl]. }
    intros E0. apply (Qclt_not_eq _ _ (E p)). symmetry. exact E0.
Qed.

(** What the workers hold of a global tensor. *)
Definition give {R : CRing} (P : part) (L : layout) (G : tensor R) (v : Z) : tensor R :=
  match index_in P v with Some idx => block L idx G | None => mkt [0] (fun _ => rzero) end.
Lemma give_blocks {R : CRing} P L (G : tensor R) : part_ok P -> tshape G = layout_shape L -> holds_blocks P L G (give P L G).
Proof.
  intros HP E. split; [exact E|]. intros idx v Hv. unfold give. rewrite (proj2 (index_in_spec P v idx HP) Hv). apply teq_refl.
Qed.
Definition give_channels {R : CRing} (P : part) (num_features : Z) (f : Z -> R) (v : Z) : tensor R :=
  match index_in P v with
  | Some idx => if forallb (fun k => Nat.eqb k 1 || (nth k idx 0 =? 0)) (seq 0 (length idx))
                then channels (length (p_shape P) - 2) (balanced1 num_features (nth 1 (p_shape P) 0)) (nth 1 idx 0) f
                else mkt [0] (fun _ => rzero)
  | None => mkt [0] (fun _ => rzero)
  end.
Lemma give_parameter {R : CRing} P num_features (f : Z -> R) : part_ok P -> (2 <= length (p_shape P))%nat -> 0 <= num_features ->
  parameter P num_features f (give_channels P num_features f).
Proof.
  intros HP L2 Hn. split.
  - intros c v Hv. unfold give_channels. rewrite (proj2 (index_in_spec P v _ HP) Hv).
    assert (E : forallb (fun k => Nat.eqb k 1 || (nth k (0 :: c :: repeat 0 (length (p_shape P) - 2)) 0 =? 0))
                  (seq 0 (length (0 :: c :: repeat 0 (length (p_shape P) - 2)))) = true).
    { apply forallb_forall. intros [|[|k]] _; cbn [nth Nat.eqb orb Z.eqb]; auto.
      destruct (nth_in_or_default k (repeat 0 (length (p_shape P) - 2)) 0) as [H|H]; [apply repeat_spec in H|]; now rewrite H. }
    rewrite E. apply teq_refl.
  - intros v Hv. destruct (worker_at_exists P v HP Hv) as [idx Hi]. unfold give_channels. rewrite (proj2 (index_in_spec P v idx HP) Hi).
    destruct (forallb _ _); cbn [tshape channels]; (split; [|discriminate]); [|constructor; [lia|constructor]]. constructor; [lia|]. constructor.
    + assert (Hr : 0 <= nth 1 idx 0 < nth 1 (p_shape P) 0) by (destruct Hi as [Hi _]; rewrite valid_index_nth in Hi; apply Hi; exact L2).
      rewrite balanced1_nth by auto. apply subshape1_nonneg; lia.
    + apply Forall_forall. intros a Ha. apply repeat_spec in Ha. lia.
Qed.

(** Four workers over batch and channels: three channels are cut into 2 and 1, a
    batch of three into 2 and 1 and one of four into 1 and 3. *)
Definition exP : part := mkpart 0 [3; 1; 2; 0] [2; 2].
Definition exG (b : Z) (a : Z) : tensor Qring := @mkt Qring [b; 3] (fun i => Q2Qc (inject_Z ((a * nth 0 i 0 + 2) * (nth 1 i 0 + 1) mod 7))).
Definition exgamma (c : Z) : Qring := Q2Qc (inject_Z (c + 1)).
Definition exsteps : list (step Qring) :=
  [mkstep true (exG 3 2) exgamma exgamma [[2; 1]; [2; 1]];
   mkstep true (exG 4 5) exgamma exgamma [[1; 3]; [2; 1]];
   mkstep false (exG 4 3) exgamma exgamma [[1; 3]; [2; 1]]].
Definition excall (s : step Qring) : bncall Qring :=
  mkcall (s_training s) (give exP (s_layout s) (s_input s)) (give_channels exP 3 (s_gamma s)) (give_channels exP 3 (s_beta s)).

Example exP_ok : part_ok exP.
Proof.
  split; [repeat constructor; cbn; lia|]. split; [discriminate|]. split; [repeat constructor|reflexivity].
Qed.

Example C34_example_steps : Forall2 (distributes exP 3 true) (map excall exsteps) exsteps.
Proof.
  assert (B : forall s, In s exsteps -> layout_ok (s_layout s) /\ layout_workers (s_layout s) = [2; 2] /\ nth 1 (s_layout s) [] = [2; 1] /\
                         tshape (s_input s) = layout_shape (s_layout s)).
  { intros s [<-|[<-|[<-|[]]]]; (split; [repeat constructor; lia|]); repeat split. }
  revert B. generalize exsteps. intros l B. induction l as [|s l IH]; [constructor|]. cbn [map]. constructor.
  - destruct (B s (or_introl eq_refl)) as (B1 & B2 & B3 & B4). split; [reflexivity|]. split; [split; [exact B1|]; split; [exact B2|exact B3]|].
    split; [apply give_blocks; [exact exP_ok|exact B4]|]. intros _.
    split; apply give_parameter; try exact exP_ok; cbn; lia.
  - apply IH. intros s' Hs'. apply B. now right.
Qed.

(** A tensor as its shape and its values. *)
Definition show (t : tensor Qring) : list Z * list Q := (tshape t, map (fun i => this (tat t i)) (indices (tshape t))).

(** With a cumulative average.  Worker 1 at index (0, 1) holds channel 2 only, whose
    values are 6, 5, 4 in the first call (of which it has two) and 6, 0, 1, 2 in the
    second (of which it has one); the third call is not in training. *)
Example C34_example_values :
  let '(ys, st) := bn_run Qarith exP 3 (Q2Qc (1 # 8)) None true true (fun _ => 0) (fun _ => false) (bn_start exP 3) (map excall exsteps) in
  map (fun y => match y 1 with Ok t => show t | Raise _ => ([], []) end) ys =
    [([2; 1], [129 # 19; 3 # 1]%Q); ([1; 1], [87 # 17]%Q); ([1; 1], [1563 # 293]%Q)] /\
  (show (running_mean (st 1)), show (running_var (st 1)), inputs_seen (st 1)) = (([1; 1], [29 # 8]%Q), ([1; 1], [281 # 96]%Q), 2).
Proof. vm_compute. split; reflexivity. Qed.

Example C34_example :
  let '(ys, st) := bn_run Qarith exP 3 (Q2Qc (1 # 8)) None true true (fun _ => 0) (fun _ => false) (bn_start exP 3) (map excall exsteps) in
  let '(Ys, q) := sequential Qarith (Q2Qc (1 # 8)) None true true (biased Qring Qarith) fresh exsteps in
  length ys = 3%nat /\ length Ys = 3%nat /\
  (forall k y Y s idx v, nth_error ys k = Some y -> nth_error Ys k = Some Y -> nth_error exsteps k = Some s -> worker_at exP idx v ->
     exists t, y v = Ok t /\ teq t (block (s_layout s) idx Y)) /\
  tracks exP 3 None q st.
Proof.
  apply (C34_histories_partial Qring Qarith exP 3 (Q2Qc (1 # 8)) None true true (fun _ => 0) (fun _ => false) (map excall exsteps) exsteps).
  - exact exP_ok.
  - cbn. lia.
  - lia.
  - intros a E. discriminate.
  - intros _. exact Qdivides.
  - exact C34_example_steps.
Qed.

(** ** What torch does differently *)

(** A batch of 0 and 2 on two workers: mean 1, variance 1. *)
Definition rP : part := mkpart 0 [0; 1] [2; 1].
Definition rG : tensor Qring := @mkt Qring [2; 1] (fun i => Q2Qc (inject_Z (2 * nth 0 i 0))).
Definition rstep : step Qring := mkstep true rG (fun _ => 0%Qc) (fun _ => 0%Qc) [[1; 1]; [1]].
Definition rcall : bncall Qring := mkcall true (give rP [[1; 1]; [1]] rG) (fun _ => rG) (fun _ => rG).
Lemma rP_ok : part_ok rP.
Proof. split; [repeat constructor; cbn; lia|]. split; [discriminate|]. split; [repeat constructor|reflexivity]. Qed.
Lemma rsteps : Forall2 (distributes rP 1 false) [rcall] [rstep].
Proof.
  constructor; [|constructor]. split; [reflexivity|]. split; [split; [repeat constructor; lia|]; split; reflexivity|].
  split; [apply give_blocks; [exact rP_ok|reflexivity]|discriminate].
Qed.
Lemma r_worker : worker_at rP [0; 0] 0.
Proof. apply (index_in_spec rP 0 [0; 0] rP_ok). reflexivity. Qed.

(** torch averages the unbiased variance into the running one, distdl the biased. *)
Theorem C34_running_variance_refuted : ~ C34_statement unbiased nonzero.
Proof.
  intros H. specialize (H Qring Qarith rP 1 (Q2Qc (1 # 8)) (Some (Q2Qc (1 # 2))) false true (fun _ => 0) (fun _ => false) [rcall] [rstep]
    rP_ok ltac:(cbn; lia) ltac:(lia)).
  specialize (H ltac:(intros a E; injection E as <-; reflexivity) ltac:(discriminate) rsteps).
  destruct (bn_run _ _ _ _ _ _ _ _ _ _ _) as [ys st] eqn:E1. destruct (sequential _ _ _ _ _ _ _ _) as [Ys q] eqn:E2.
  destruct H as (_ & _ & _ & HT). destruct (HT [0; 0] 0 r_worker) as (_ & [Es Hv] & _).
  assert (E3 : this (tat (running_var (st 0)) [0; 0]) = (1 # 1)%Q).
  { change st with (snd (ys, st)). rewrite <- E1. vm_compute. reflexivity. }
  assert (E4 : this (q_var q 0) = (3 # 2)%Q).
  { change q with (snd (Ys, q)). rewrite <- E2. vm_compute. reflexivity. }
  rewrite Hv in E3 by (rewrite Es; repeat constructor; cbn; lia). cbn in E3. rewrite E4 in E3. discriminate.
Qed.

(** With momentum 0 torch keeps the statistics; distdl takes 0 for None. *)
Theorem C34_momentum_zero_refuted : ~ C34_statement biased any.
Proof.
  intros H. specialize (H Qring Qarith rP 1 (Q2Qc (1 # 8)) (Some 0%Qc) false true (fun _ => 0) (fun _ => false) [rcall] [rstep]
    rP_ok ltac:(cbn; lia) ltac:(lia) I ltac:(discriminate) rsteps).
  destruct (bn_run _ _ _ _ _ _ _ _ _ _ _) as [ys st] eqn:E1. destruct (sequential _ _ _ _ _ _ _ _) as [Ys q] eqn:E2.
  destruct H as (_ & _ & _ & HT). destruct (HT [0; 0] 0 r_worker) as ([Es Hv] & _).
  assert (E3 : this (tat (running_mean (st 0)) [0; 0]) = (1 # 1)%Q).
  { change st with (snd (ys, st)). rewrite <- E1. vm_compute. reflexivity. }
  assert (E4 : this (q_mean q 0) = (0 # 1)%Q).
  { change q with (snd (Ys, q)). rewrite <- E2. vm_compute. reflexivity. }
  rewrite Hv in E3 by (rewrite Es; repeat constructor; cbn; lia). cbn in E3. rewrite E4 in E3. discriminate.
Qed.

(** The mean and variance that worker 2, at index (1, 0) with channels 0 and 1, uses
    in the first call: the values are 2, 4, 6 and 4, 1, 5. *)
Example C34_statistics_example :
  match bn_statistics Qarith exP 3 None true (fun _ => 0) (fun _ => false) (bn_start exP 3) (excall (mkstep true (exG 3 2) exgamma exgamma [[2; 1]; [2; 1]])) 2 with
  | Ok (m, s, _) => show m = ([1; 2], [4 # 1; 10 # 3]%Q) /\ show s = ([1; 2], [8 # 3; 26 # 9]%Q)
  | Raise _ => False
  end.
Proof. vm_compute. split; reflexivity. Qed.

Print Assumptions C34_statistics.
Print Assumptions C34_histories_partial.
Print Assumptions C34_running_variance_refuted.
Print Assumptions C34_momentum_zero_refuted.
