(** Batch normalisation as a layer of a network. *)

From Verif Require Import Prelude ModelSlicing ModelDecomposition ModelPartition SpecIndex SpecLayout SpecPartition ProofSlicing ProofDecomposition
  ProofPartition Ring Tensor Blocks ModelCollectives ProofRepartition PropRepartition ModelBatchNorm SpecBatchNorm ProofBatchNorm PropBatchNorm
  ModelBatchNormGrad ProofBatchNormGrad PropBatchNormGrad ModelTraining SpecTraining ProofTraining ProofStages ProofWindows.
Local Open Scope Z_scope.

(** The workers with first index in every dimension but the second hold gamma and
    beta of their channels. *)
Definition norm_layout (P : part) (num_features : Z) : layout :=
  [1] :: balanced1 num_features (nth 1 (p_shape P) 0) :: repeat [1] (length (p_shape P) - 2).
Definition norm_homes (P : part) (num_features : Z) (affine : bool) : list home :=
  let h := mkhome (fun v idx => worker_at P idx v /\ exists k, idx = 0 :: k :: repeat 0 (length (p_shape P) - 2)) (norm_layout P num_features) in
  if affine then [h; h] else [].

Lemma ones_total d : map zsum (repeat [1] d) = repeat 1 d.
Proof. induction d as [|d IH]; [reflexivity|]. cbn [repeat map]. now rewrite IH. Qed.

Lemma ones_shape d : map2 (fun e j => nth (Z.to_nat j) e 0) (repeat [1] d) (repeat 0 d) = repeat 1 d.
Proof. induction d as [|d IH]; [reflexivity|]. cbn [repeat map2]. now rewrite IH. Qed.

Lemma zeros_lo d : map2 Z.add (map2 (fun e j => zsum (firstn (Z.to_nat j) e)) (repeat [1] d) (repeat 0 d)) (repeat 0 d) = repeat 0 d.
Proof. induction d as [|d IH]; [reflexivity|]. cbn [repeat map2]. now rewrite IH. Qed.

Lemma channels_block {R : CRing} d e k (T : tensor R) :
  teq (block ([1] :: e :: repeat [1] d) (pt d k) T) (channels d e k (fun c => tat T (pt d c))).
Proof.
  assert (Es : tshape (block ([1] :: e :: repeat [1] d) (pt d k) T) = 1 :: nth (Z.to_nat k) e 0 :: repeat 1 d).
  { unfold block, block_shape, pt. cbn [tshape map2]. now rewrite ones_shape. }
  split; [exact Es|]. intros i Hi. rewrite Es in Hi. apply channel_index in Hi as (c & -> & Hc).
  unfold block, channels, block_lo, vadd, pt. cbn [tat map2 nth]. f_equal. cbn. now rewrite zeros_lo.
Qed.

Lemma teq_channels {R : CRing} d e k (f g : Z -> R) : (forall c, f c = g c) -> teq (channels d e k f) (channels d e k g).
Proof. intros H. split; [reflexivity|]. intros i _. cbn [channels tat]. apply H. Qed.

Section Norm.
  Context {R : CRing}.
  Variables (world : list Z) (A : arith R) (P : part) (num_features : Z) (eps : R) (momentum : option R) (affine track : bool).
  Variables (dt : Z -> Z) (rg : Z -> bool) (L : layout).
  Hypothesis HA : linear_division A.
  Hypothesis HP : part_ok P.
  Hypothesis LP2 : (2 <= length (p_shape P))%nat.
  Hypothesis Hn : 0 <= num_features.
  Hypothesis HF : fits P num_features L.
  (** No worker is outside: the constructor reads the index of every worker
      (batchnorm.py:60-63). *)
  Hypothesis Hw : forall v, In v world <-> In v (p_ranks P).
  Notation d := (length (p_shape P) - 2)%nat.
  Notation e := (balanced1 num_features (nth 1 (p_shape P) 0)).

  Lemma layout_dims : length L = length (p_shape P).
  Proof. destruct HF as (_ & E & _). now rewrite <- E, layout_workers_length. Qed.
  Lemma channel_count : nth 1 (layout_shape L) 0 = zsum e.
  Proof. destruct HF as (_ & _ & E). unfold layout_shape. change 0 with (zsum []) at 1. now rewrite map_nth, E. Qed.
  Lemma norm_shape X : tshape X = layout_shape L -> per_channel_shape (R := R) X = layout_shape (norm_layout P num_features).
  Proof.
    intros E. unfold per_channel_shape. rewrite E, channel_count. unfold norm_layout, layout_shape. cbn [map]. rewrite ones_total.
    f_equal. now rewrite map_length, layout_dims.
  Qed.
  Lemma norm_dims (T : tensor R) : tshape T = layout_shape (norm_layout P num_features) -> (length (tshape T) - 2)%nat = d :> nat.
  Proof. intros ->. unfold norm_layout, layout_shape. rewrite map_length. cbn [length]. rewrite repeat_length. clear. lia. Qed.

  Lemma extents (st : Z -> bnstate R) v idx : statistics_extents P num_features st -> worker_at P idx v ->
    let shape := 1 :: nth (Z.to_nat (nth 1 idx 0)) (nth 1 L []) 0 :: repeat 1 d in
    tshape (running_mean (st v)) = shape /\ tshape (running_var (st v)) = shape.
  Proof.
    intros H Hv. destruct (H v (worker_at_In _ _ _ Hv)) as [-> ->].
    destruct (start_tracks R P num_features momentum HP LP2 Hn idx v Hv) as ([E1 _] & [E2 _] & _).
    destruct HF as (_ & _ & ->). split; [exact E1|exact E2].
  Qed.

  Section Call.
    Variables (Th : list (@slots R)) (th : Z -> list (@slots R)) (X : tensor R) (x : Z -> tensor R).
    Hypothesis HT : params_held world (norm_homes P num_features affine) Th th.
    Hypothesis HX : holds_blocks P L X x.
    Notation ps := (map value_of Th).
    Notation gamma := (at_channel (weight_of ps)).
    Notation beta := (at_channel (bias_of ps)).
    Let c := bn_training (R := R) th x.
    Let s := mkstep true X gamma beta L.

    Lemma call_distributes : distributes P num_features affine c s.
    Proof.
      split; [reflexivity|]. split; [exact HF|]. split; [exact HX|]. intros Ea.
      assert (K : forall j, (j < 2)%nat -> parameter P num_features (at_channel (nth j ps no_tensor)) (param j th)).
      { intros j Hj. assert (Hl : (j < length (norm_homes P num_features affine))%nat) by (unfold norm_homes; rewrite Ea; cbn; exact Hj).
        assert (En : nth j (norm_homes P num_features affine) no_home = mkhome (fun v idx => worker_at P idx v /\ exists k, idx = pt d k) (norm_layout P num_features)).
        { unfold norm_homes. rewrite Ea. destruct j as [|[|j]]; [reflexivity|reflexivity|clear - Hj; lia]. }
        split.
        - intros k v Hv. pose proof (param_block _ _ _ _ HT j v (pt d k) Hl) as B. rewrite En in B. cbn [h_at h_layout] in B.
          eapply teq_trans; [apply B; [apply Hw; eapply worker_at_In; eauto|split; [exact Hv|eauto]]|].
          eapply teq_trans; [apply channels_block|]. apply teq_channels. intros c0. unfold at_channel.
          rewrite norm_dims; [reflexivity|]. rewrite (param_shape _ _ _ _ HT j Hl), En. reflexivity.
        - intros v Hv. apply (param_dims _ _ _ _ HT j v). now apply Hw. }
      split; [apply (K 0%nat)|apply (K 1%nat)]; repeat constructor.
    Qed.

    Lemma call_knows st : statistics_extents P num_features st -> knows A P num_features momentum track dt rg fresh st c s.
    Proof.
      intros H. apply (training_knows A P num_features momentum affine track dt rg HP LP2 fresh st c s call_distributes eq_refl).
      intros idx v Hv. exact (extents st v idx H Hv).
    Qed.

    Lemma call_forward st v idx : statistics_extents P num_features st -> worker_at P idx v ->
      exists t, (let* r := bn_forward A P num_features eps momentum affine track dt rg st c v in Ok (fst r)) = Ok t /\
        teq t (block L idx (normalised A eps affine true true gamma beta fresh X)).
    Proof.
      intros H Hv. destruct (call_knows st H idx v Hv) as (m & w & st' & E & Hm & Hv').
      destruct (output_ok A P num_features eps momentum affine track dt rg HP LP2 c s fresh st call_distributes idx v m w st' Hv E) as (y & Ey & Hy).
      - destruct HF as (_ & _ & <-). exact Hm.
      - destruct HF as (_ & _ & <-). exact Hv'.
      - rewrite Ey. cbn [rbind fst]. exists y. split; [reflexivity|exact Hy].
    Qed.

    Lemma has_channels k v : worker_at P (pt d k) v -> has_affine P v = true.
    Proof.
      intros Hv. assert (Hd : length (p_shape P) = S (S d)) by (clear - LP2; lia). unfold has_affine. rewrite (st_part P d HP Hd).
      apply is_active_spec. eapply worker_at_In. apply (st_worker P d HP Hd). exact Hv.
    Qed.

    Variables (dY : tensor R) (dy : Z -> tensor R) (st : Z -> bnstate R).
    Hypothesis HY : holds_blocks P L dY dy.
    Hypothesis Hst : statistics_extents P num_features st.

    Lemma call_input v idx : worker_at P idx v ->
      exists t, bn_input_gradient A P num_features eps momentum affine track dt rg st c dy v = Ok t /\
        teq t (block L idx (mkt (tshape X) (dinput A eps affine true true fresh gamma X dY))).
    Proof.
      intros Hv. destruct (w_dinput A HA P num_features eps momentum affine track dt rg HP LP2 fresh st c s dY dy call_distributes (call_knows st Hst) HY idx v Hv) as (t & E & Ht).
      exists t. split; [exact E|]. exact Ht.
    Qed.
    Lemma call_parameters v idx : affine = true -> worker_at P idx v -> (exists k, idx = pt d k) ->
      (exists t, bn_gamma_gradient A P num_features eps momentum track dt rg st c dy v = Ok t /\
         teq t (block (norm_layout P num_features) idx (mkt (per_channel_shape X) (fun i => dgamma A eps affine true true fresh X dY (nth 1 i 0))))) /\
      (exists t, bn_beta_gradient P dt rg c dy v = Ok t /\
         teq t (block (norm_layout P num_features) idx (mkt (per_channel_shape X) (fun i => dbeta affine X dY (nth 1 i 0))))).
    Proof.
      intros Ea Hv [k ->]. destruct HF as (_ & _ & Ee).
      destruct (w_gamma A P num_features eps momentum affine track dt rg HP LP2 fresh st c s dY dy call_distributes (call_knows st Hst) HY k v Ea Hv) as (t & E & Ht).
      destruct (w_beta P num_features affine dt rg HP LP2 c s dY dy call_distributes HY k v Ea Hv) as (t' & E' & Ht').
      cbn [s_layout s] in Ht, Ht'. rewrite Ee in Ht, Ht'.
      split; [exists t; split; [exact E|]|exists t'; split; [exact E'|]]; eapply teq_trans; try eassumption; apply teq_sym.
      - exact (channels_block d e k (mkt (per_channel_shape X) (fun i => dgamma A eps affine true true fresh X dY (nth 1 i 0)))).
      - exact (channels_block d e k (mkt (per_channel_shape X) (fun i => dbeta affine X dY (nth 1 i 0)))).
    Qed.
  End Call.

  Lemma start_extents : statistics_extents P num_features (bn_start (R := R) P num_features).
  Proof. intros v _. now split. Qed.

  Lemma norm_sound : sound world (mkplace P L) (YBatchNorm A P num_features eps momentum affine track dt rg)
    (seq_batchnorm A eps affine) (norm_homes P num_features affine) (mkplace P L).
  Proof.
    intros Th th X x HT [HX _] ps. cbn [pl_part pl_layout] in *.
    assert (HPw : forall v, In v (p_ranks P) -> In v world) by (intros v; apply Hw).
    assert (Fd : forall st, statistics_extents P num_features st ->
      (exists y, returns world (fun v => let* r := bn_forward A P num_features eps momentum affine track dt rg st (bn_training th x) v in Ok (fst r)) y) /\
      forall y, returns world (fun v => let* r := bn_forward A P num_features eps momentum affine track dt rg st (bn_training th x) v in Ok (fst r)) y ->
        held world (mkplace P L) (q_forward (seq_batchnorm A eps affine) ps X) y).
    { intros st Hst. apply (deliver world _ P L _ HP HPw); [exact (proj1 HX)| |intros v Hv N; exfalso; apply N, Hw, Hv].
      intros idx v Hv. exact (call_forward Th th X x HT HX st v idx Hst Hv). }
    split.
    { destruct (Fd _ start_extents) as [[y Hy] _]. exists x, y. exists (bn_start P num_features). split; [apply start_extents|exact Hy]. }
    intros saved out (st & Hst & Hy). split; [now apply (Fd st Hst)|]. clear st Hst Hy.
    intros dY dy [HY _]. cbn [pl_part pl_layout] in HY.
    assert (Bd : forall st, statistics_extents P num_features st ->
      (exists dx, returns world (bn_input_gradient A P num_features eps momentum affine track dt rg st (bn_training th x) dy) dx) /\
      forall dx, returns world (bn_input_gradient A P num_features eps momentum affine track dt rg st (bn_training th x) dy) dx ->
        held world (mkplace P L) (q_back (seq_batchnorm A eps affine) ps X dY) dx).
    { intros st Hst. apply (deliver world _ P L _ HP HPw); [exact (proj1 HX)| |intros v Hv N; exfalso; apply N, Hw, Hv].
      intros idx v Hv. exact (call_input Th th X x HT HX dY dy st HY Hst v idx Hv). }
    split.
    { destruct (Bd _ start_extents) as [[dx Hdx] _]. exists dx. eexists. exists (bn_start P num_features).
      split; [apply start_extents|]. split; [exact Hdx|reflexivity]. }
    intros dx ga (st & Hst & Hdx & ->). split; [now apply (Bd st Hst)|].
    cbn [q_grads seq_batchnorm]. unfold norm_homes. case_eq affine; intros Ea; [|apply no_grads].
    apply grads_two; try exact (norm_shape X (proj1 HX)).
    - intros v idx Hv [Hi Hk]. destruct (call_parameters Th th X x HT HX dY dy st HY Hst v idx Ea Hi Hk) as [(t & E & Ht) _].
      destruct Hk as [k ->]. rewrite (has_channels k v Hi). cbn [andb nth]. exists t. rewrite E. split; [reflexivity|]. rewrite Ea in Ht. exact Ht.
    - intros v idx Hv [Hi Hk]. destruct (call_parameters Th th X x HT HX dY dy st HY Hst v idx Ea Hi Hk) as [_ (t & E & Ht)].
      destruct Hk as [k ->]. rewrite (has_channels k v Hi). cbn [andb nth]. exists t. rewrite E. split; [reflexivity|]. rewrite Ea in Ht. exact Ht.
  Qed.
End Norm.
