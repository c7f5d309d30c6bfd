(** The backward pass of the parameters' broadcasts of conv_general.py, and its torch
    layer's gradients. *)

From Verif Require Import Prelude SpecIndex SpecLayout SpecPartition SpecHalo ModelSlicing ModelDecomposition ModelPartition ProofSlicing
  ProofDecomposition ProofPartition Ring Tensor ModelCollectives ProofCollectives PropCollectives Blocks ModelUtilities P2P Rounds
  ModelRepartition ProofRepartition PropRepartition ModelHaloMixin ProofHaloMixin PropHaloMixin ModelHaloExchange PropHaloExchange
  ModelFeatureLayer SpecFeature ProofFeatureLayer PropFeatureLayer PropFeatureConv ModelLinear ProofWork PropLinear ModelConv ProofConv
  ProofConvParts ModelGradients ModelFeatureGrad SpecFeatureGrad ProofFeatureGrad.
Local Open Scope Z_scope.

Section SubBroadcast.
  Context {R : CRing}.
  Variables (Pw : part) (m m' : list bool).
  Hypothesis HP : part_ok Pw.
  Hypothesis Hm : length m = length (p_shape Pw).
  Hypothesis Hm' : length m' = length (p_shape Pw).
  Hypothesis Hsub : Forall2 (fun a b : bool => b = true -> a = true) m m'.
  Variables (dt : Z -> Z) (rg : Z -> bool) (param grads : Z -> tensor R).
  Hypothesis Hs : forall v, In v (p_ranks Pw) -> nonneg_shape (tshape (param v)).
  Hypothesis Hg : forall idx v, worker_at Pw idx v -> mask_zero m' idx = true -> tshape (grads v) = tshape (param (wk Pw (unmask m idx))).

  Lemma roots_use idx : length idx = length m -> mask_zero m idx = true -> mask_zero m' idx = true.
  Proof.
    clear - Hsub. revert idx. induction Hsub as [|a b m m' Hab F IH]; intros [|i c] L H; try discriminate; [reflexivity|]. injection L as L.
    unfold mask_zero in *. cbn [combine forallb fst snd] in *. apply andb_true_iff in H as [H1 H2]. apply andb_true_iff. split; auto.
    destruct b; auto. now rewrite Hab in H1.
  Qed.

  Lemma sub_broadcast_back idx v us : worker_at Pw idx v -> mask_zero m idx = true -> NoDup us ->
    (forall u, In u us <-> exists i, worker_at Pw i u /\ mask_zero m' i = true /\ unmask m i = idx) ->
    exists t, broadcast_layer_backward (sub_part m Pw) (sub_part m' Pw) false false false false dt rg param grads v = Ok t /\
      tshape t = tshape (param v) /\ forall i, valid_index (tshape t) i -> tat t i = sumf us (fun u => tat (grads u) i).
  Proof.
    intros Hv Hz Hn Hus.
    assert (H1 : part_ok (sub_part m Pw)) by now apply sub_ok. assert (H2 : part_ok (sub_part m' Pw)) by now apply sub_ok.
    assert (HA : bc_accepted (sub_part m Pw) (sub_part m' Pw) false false false).
    { split; [auto|]. split; [auto|]. split; [reflexivity|]. split; [|discriminate]. cbn [flip sub_part p_shape].
      rewrite <- (masked_twice m m') by auto. apply masked_compatible. now rewrite masked_length by auto; rewrite Hm. }
    assert (Lw : forall i u, worker_at Pw i u -> length i = length m) by (intros i u Hu; rewrite Hm; apply valid_index_length, Hu).
    assert (Sg : forall i u, worker_at Pw i u -> mask_zero m' i = true -> nonneg_shape (tshape (grads u))).
    { intros i u Hu Hz'. rewrite (Hg i u Hu Hz'). apply Hs. eapply worker_at_In, wk_worker; auto. apply unmask_valid; auto. apply Hu. }
    destruct (C15_proof _ _ false false false false dt rg HA) as (src & S1 & S2 & K). specialize (S2 (or_introl eq_refl)).
    assert (Es : forall i u, worker_at Pw i u -> mask_zero m' i = true -> src u = wk Pw (unmask m i)).
    { intros i u Hu Hz'. assert (Hu' : In u (p_ranks (sub_part m' Pw))) by (apply sub_active; auto; eauto).
      destruct (S2 u Hu') as (si & di & Hsi & Hdi & E). apply sub_worker in Hsi as [Hsi _], Hdi as [Hdi Hzd]; auto.
      pose proof (worker_at_fun Pw _ _ u HP Hdi Hu). subst di. cbn [flip sub_part p_shape] in E.
      rewrite <- (masked_twice m m') in E by auto. rewrite project_masked in E.
      - subst si. symmetry. now apply worker_wk.
      - now rewrite masked_length by auto; rewrite Hm.
      - apply masked_valid; auto; [apply HP|]. split; auto. apply Hu. }
    destruct (K R param grads) as (_ & A & _).
    - intros u Hu. split; [|discriminate]. apply Hs.
      destruct Hu as [Hu|Hu]; apply sub_active in Hu as (i & Hu & _); auto; eapply worker_at_In; eauto.
    - intros u Hu. split; [|discriminate].
      destruct Hu as [Hu|Hu]; apply sub_active in Hu as (i & Hu & Hz'); auto; eapply Sg; eauto. apply roots_use; eauto.
    - intros d Hd. apply sub_active in Hd as (i & Hd & Hz'); auto. rewrite (Hg i d Hd Hz').
      destruct (sub_broadcast Pw m m' HP Hm Hm' Hsub dt rg param Hs i d Hd Hz') as (t & -> & [E _]). cbn [val]. now rewrite E.
    - destruct (A v) as (t & E & T1 & T2); [apply sub_active; auto; eauto|]. exists t. split; [exact E|]. split; [exact T1|].
      intros i Hi. rewrite T1 in Hi. rewrite T2 by auto. apply sumf_perm. apply NoDup_Permutation; auto.
      + apply NoDup_filter. apply H2.
      + intros u. rewrite filter_In, Hus, Z.eqb_eq. split.
        * intros [Hu E']. apply sub_active in Hu as (k & Hu & Hz'); auto. exists k. split; [auto|]. split; [auto|].
          rewrite (Es k u Hu Hz') in E'.
          eapply wk_inj; [exact HP| |apply Hv|]; [apply unmask_valid; auto; apply Hu|]. rewrite E'. symmetry. now apply worker_wk.
        * intros (k & Hu & Hz' & E'). split; [apply sub_active; auto; eauto|]. rewrite (Es k u Hu Hz'), E'. now apply worker_wk.
  Qed.
End SubBroadcast.

(** The torch layer's gradients do not change with the arguments' representation. *)
Lemma sliding_back_teq {R : CRing} w cj groups cpg b cin xs ys (wt wt' g g' : tensor R) :
  tshape wt = cj :: cpg :: w_kernel w -> cin / groups = cpg -> teq wt wt' ->
  tshape g = b :: cj :: ys -> teq g g' ->
  teq (sliding_backward (conv_coefficients cj groups wt) w (b :: cin :: xs) g)
      (sliding_backward (conv_coefficients cj groups wt') w (b :: cin :: xs) g').
Proof.
  intros Ew Ec [_ Tw] Eg [Sg Tg]. split; [reflexivity|]. cbn [sliding_backward tshape tat]. intros q Hq.
  apply valid_index_cons_inv in Hq as (b' & q1 & -> & Hb' & Hq). apply valid_index_cons_inv in Hq as (ch & q' & -> & Hch & Hq).
  rewrite <- Sg, Eg. cbn [nth skipn]. apply sumf_ext. intros c Hc. apply sumf_ext. intros o Ho. apply sumf_ext. intros k Hk.
  apply in_zrange in Hc. apply in_indices in Ho, Hk. destruct (zlist_eqb _ _); auto. f_equal.
  - unfold conv_coefficients. destruct (_ && _) eqn:Et; auto. apply andb_true_iff in Et as [L1 L2]. apply Z.leb_le in L1. apply Z.ltb_lt in L2.
    apply Tw. rewrite Ew. apply valid_index_cons. split; [auto|]. apply valid_index_cons. split; [lia|auto].
  - apply Tg. rewrite Eg. do 2 (apply valid_index_cons; split; [auto|]). auto.
Qed.

Lemma range_sum {R : CRing} S (F : list Z -> R) : sumf (range_index S) F = sumf (indices S) F.
Proof.
  apply sumf_perm, NoDup_Permutation; [apply range_index_nodup|apply indices_nodup|]. intros i. now rewrite in_range_index, in_indices.
Qed.

(** Summing over the entries of all blocks is summing over all entries. *)
Lemma balanced_entries {R : CRing} (ys S : list Z) (F : list Z -> R) :
  length ys = length S -> nonneg_shape ys -> pos_shape S ->
  sumf (indices S) (fun s => sumf (indices (block_shape (balanced ys S) s)) (fun o => F (vadd (block_lo (balanced ys S) s) o))) = sumf (indices ys) F.
Proof.
  intros HL Hn Hp. rewrite <- range_sum. pose proof (balanced_shape ys S Hp Hn HL) as E. pose proof (balanced_workers ys S Hp HL) as E'.
  pose proof (block_sum (balanced ys S) (balanced_ok _ _ Hp Hn) F) as K. rewrite E, E' in K. symmetry. exact K.
Qed.
