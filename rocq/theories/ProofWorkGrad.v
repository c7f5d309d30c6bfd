(** The backward pass of the pattern broadcast, local layer, sum-reduction. *)

From Verif Require Import Prelude SpecIndex SpecPartition ModelSlicing ModelPartition ProofPartition Ring Tensor
  ModelCollectives ProofCollectives PropCollectives ModelLinear ModelWorkGrad ProofWork.

(** The list [us] has the workers of P_w that receive the input of [s], each once. *)
Definition receivers (Px Pw : part) (s : Z) (us : list Z) : Prop :=
  NoDup us /\ forall u, In u us <-> paired Px Pw false false s u.

Section Work.
  Context {R : CRing}.
  Variables Px Pw Py : part.
  Variables same_xw same_wy ts : bool.
  Variables (dt dt' : Z -> Z) (rg rg' : Z -> bool).
  Variable local : Z -> tensor R -> result (tensor R).
  Variable local_back : Z -> tensor R -> tensor R -> result (tensor R).
  Variables x dy : Z -> tensor R.
  Variables out back : Z -> tensor R.      (* what the local layers and their gradients compute *)

  Hypothesis HA : bc_accepted Px Pw false false same_xw.
  Hypothesis HD : rd_accepted Pw Py ts false same_wy.
  Hypothesis HF : bc_flags Py ts false.
  Hypothesis HX : forall v, In v (p_ranks Px) \/ In v (p_ranks Pw) \/ In v (p_ranks Py) ->
    nonneg_shape (tshape (x v)) /\ tshape (x v) <> [].
  Hypothesis HL : forall s u t, paired Px Pw false false s u -> broadcast_layer Px Pw same_xw false false true dt rg x u = Ok t -> teq t (x s) ->
    exists t', local u t = Ok t' /\ teq t' (out u).
  Hypothesis HO : forall u, In u (p_ranks Pw) -> nonneg_shape (tshape (out u)) /\ tshape (out u) <> [].
  Hypothesis HS : forall d u u', paired Py Pw false ts d u -> paired Py Pw false ts d u' -> tshape (out u) = tshape (out u').
  Hypothesis HY : forall v, In v (p_ranks Px) \/ In v (p_ranks Pw) \/ In v (p_ranks Py) ->
    nonneg_shape (tshape (dy v)) /\ tshape (dy v) <> [].
  Hypothesis HG : forall d u, paired Py Pw false ts d u -> tshape (dy d) = tshape (out u).
  Hypothesis HN : forall d, In d (p_ranks Py) -> exists u, paired Py Pw false ts d u.
  Hypothesis HB : forall s u d t g, paired Px Pw false false s u -> teq t (x s) -> paired Py Pw false ts d u -> teq g (dy d) ->
    work_layer_gradient Px Pw Py same_xw same_wy ts dt dt' rg rg' local x dy local_back u = local_back u t g ->
    exists t', local_back u t g = Ok t' /\ teq t' (back u).
  Hypothesis HT : forall s u, paired Px Pw false false s u -> tshape (back u) = tshape (x s).

  Let contrib := work_contribution Px Pw same_xw dt rg local x.
  Let cot := work_cotangent Px Pw Py same_xw same_wy ts dt dt' rg rg' local x dy.

  Lemma pw_in {Q : part} {t d u} : paired Q Pw false t d u -> In u (p_ranks Pw).
  Proof. intros (si & di & _ & Hu & _). now apply worker_at_In in Hu. Qed.

  (** What reaches the outputs of the local layers. *)
  Lemma work_cot :
    (forall u, In u (p_ranks Pw) -> exists d t, paired Py Pw false ts d u /\ cot u = Ok t /\ teq t (dy d)) /\
    (forall v, ~ In v (p_ranks Pw) -> In v (p_ranks Py) -> zero_vol true (batch_of (dy v)) (cot v)) /\
    (forall v, ~ In v (p_ranks Pw) -> ~ In v (p_ranks Py) -> cot v = Ok (dy v)).
  Proof.
    destruct (C16_proof Pw Py same_wy ts false true dt' rg' HD) as (dst & Hdst & Hp & HC). specialize (Hp HF).
    pose proof (contrib_shapes Px Pw Py same_xw ts dt dt' rg rg' local x out HA HX HL HO HS) as Sh. fold contrib in Sh.
    assert (Ct : forall v, In v (p_ranks Pw) -> teq (contrib v) (out v)).
    { exact (contrib_teq Px Pw Py same_xw dt dt' rg rg' local x out HA HX HL). }
    destruct (HC R contrib Sh) as (A & B & C & D).
    { intros s s' Hs Hs' E. destruct (Ct s Hs) as [-> _], (Ct s' Hs') as [-> _]. apply (HS (dst s)); apply Hp; auto. }
    destruct (D dy) as (D1 & D2 & _).
    - intros v Hv. destruct (HY v); tauto.
    - intros d Hd. destruct (HN d Hd) as [u Hu]. destruct (A d Hd) as (t & -> & T & _). cbn [val].
      rewrite (T u); [|exact (pw_in Hu)|symmetry; apply Hp; auto; exact (pw_in Hu)].
      destruct (Ct u (pw_in Hu)) as [-> _]. now apply HG.
    - split; [|split].
      + intros u Hu. destruct (D1 u Hu) as (t & E & T). exists (dst u), t. split; [now apply Hp|]. split; [exact E|exact T].
      + exact D2.
      + intros v Hn Hy. unfold cot, work_cotangent, sum_reduce_layer_backward, layer_backward.
        assert (I : is_identity same_wy Pw ts false v = false).
        { destruct (is_identity same_wy Pw ts false v) eqn:I; auto. apply identity_active in I. contradiction. }
        rewrite I, inactive_or; auto.
  Qed.

  (** The gradient of a torch layer for any of its arguments. *)
  Lemma work_layer (bk : Z -> tensor R -> tensor R -> result (tensor R)) u : In u (p_ranks Pw) ->
    exists s d t g, paired Px Pw false false s u /\ teq t (x s) /\ paired Py Pw false ts d u /\ teq g (dy d) /\
      work_layer_gradient Px Pw Py same_xw same_wy ts dt dt' rg rg' local x dy bk u = bk u t g.
  Proof.
    intros Hu. destruct work_cot as (A & _ & _). destruct (A u Hu) as (d & g & Hd & E & T).
    destruct (work_bc Px Pw Py same_xw dt dt' rg rg' x HA HX) as (A' & _ & _). destruct (A' u Hu) as (s & t & Hs & E' & T').
    exists s, d, t, g. repeat (split; [assumption|]). unfold work_layer_gradient. fold cot. rewrite E. cbn [rbind]. now rewrite E'.
  Qed.

  Let bloc := work_back_local Px Pw Py same_xw same_wy ts dt dt' rg rg' local local_back x dy.
  Let bcon := work_back_contribution Px Pw Py same_xw same_wy ts dt dt' rg rg' local local_back x dy.

  Lemma bloc_ok u : In u (p_ranks Pw) -> exists t, bloc u = Ok t /\ teq t (back u).
  Proof.
    intros Hu. destruct (work_layer local_back u Hu) as (s & d & t & g & H1 & H2 & H3 & H4 & E).
    unfold bloc, work_back_local. apply is_active_spec in Hu. rewrite Hu, E. eauto.
  Qed.
  Lemma bcon_teq u : In u (p_ranks Pw) -> teq (bcon u) (back u).
  Proof. intros Hu. destruct (bloc_ok u Hu) as (t & E & T). unfold bcon, work_back_contribution. fold bloc. now rewrite E. Qed.

  Lemma bloc_any v : exists t, bloc v = Ok t.
  Proof.
    destruct (in_dec Z.eq_dec v (p_ranks Pw)) as [Hw|Hw]; [destruct (bloc_ok v Hw) as (t & E & _); eauto|].
    unfold bloc, work_back_local. pose proof Hw as Hw'. apply is_active_false in Hw'. rewrite Hw'. destruct work_cot as (_ & B & C).
    destruct (in_dec Z.eq_dec v (p_ranks Py)) as [Hy|Hy]; [destruct (B v Hw Hy) as (t & E & _); eauto|].
    pose proof (C v Hw Hy); eauto.
  Qed.

  Lemma back_shape u : In u (p_ranks Pw) -> exists s, paired Px Pw false false s u /\ tshape (back u) = tshape (x s) /\
    nonneg_shape (tshape (back u)) /\ tshape (back u) <> [].
  Proof.
    intros Hu. destruct (work_bc Px Pw Py same_xw dt dt' rg rg' x HA HX) as (A' & _ & _). destruct (A' u Hu) as (s & t & Hs & E' & T').
    exists s. split; auto. rewrite (HT s u Hs). split; auto. apply HX. left.
    destruct Hs as (si & di & Hs & _). now apply worker_at_In in Hs.
  Qed.

  Lemma bcon_other v : ~ In v (p_ranks Pw) -> In v (p_ranks Px) \/ In v (p_ranks Py) ->
    nonneg_shape (tshape (bcon v)) /\ tshape (bcon v) <> [] /\ hd 0 (tshape (bcon v)) = batch_of (dy v).
  Proof.
    intros Hw Hv. destruct work_cot as (_ & B & C). unfold bcon, work_back_contribution, work_back_local.
    pose proof Hw as Hw'. apply is_active_false in Hw'. rewrite Hw'. fold cot.
    assert (K : nonneg_shape (tshape (dy v)) /\ tshape (dy v) <> []) by (apply HY; tauto). destruct K as [K1 K2].
    destruct (in_dec Z.eq_dec v (p_ranks Py)) as [Hy|Hy].
    - destruct (B v Hw Hy) as (t & -> & T). rewrite T. cbn [hd]. split; [|split; [discriminate|auto]].
      unfold batch_of. destruct (tshape (dy v)) as [|b r]; [congruence|]. inversion K1; subst. repeat (constructor; auto). lia.
    - rewrite (C v Hw Hy). auto.
  Qed.

  Lemma work_back_sum :
    (forall s us, In s (p_ranks Px) -> receivers Px Pw s us ->
       exists t, work_backward Px Pw Py same_xw same_wy ts dt dt' rg rg' local local_back x dy s = Ok t /\ tshape t = tshape (x s) /\
         forall i, valid_index (tshape t) i -> tat t i = sumf us (fun u => tat (back u) i)) /\
    (forall v, In v (p_ranks Pw) \/ In v (p_ranks Py) -> ~ In v (p_ranks Px) ->
       exists t n, work_backward Px Pw Py same_xw same_wy ts dt dt' rg rg' local local_back x dy v = Ok t /\ tshape t = [n; 0] /\ 0 <= n) /\
    (forall v, ~ In v (p_ranks Px) -> ~ In v (p_ranks Pw) -> ~ In v (p_ranks Py) ->
       work_backward Px Pw Py same_xw same_wy ts dt dt' rg rg' local local_back x dy v = Ok (dy v)).
  Proof.
    assert (Hrun : forall v, In v (p_ranks Px) \/ In v (p_ranks Pw) \/ In v (p_ranks Py) ->
      work_backward Px Pw Py same_xw same_wy ts dt dt' rg rg' local local_back x dy v =
      broadcast_layer_backward Px Pw same_xw false false true dt rg x bcon v).
    { intros v Hv. unfold work_backward.
      replace (is_active (p_ranks Px) v || is_active (p_ranks Py) v || is_active (p_ranks Pw) v) with true.
      - cbn [negb]. fold bloc. destruct (bloc_any v) as [t ->]. reflexivity.
      - symmetry. destruct Hv as [H|[H|H]]; apply is_active_spec in H; rewrite H; auto using orb_true_r.
        now rewrite orb_true_r. }
    destruct (C15_proof Px Pw same_xw false false true dt rg HA) as (src & Hsrc & Hp & HC).
    specialize (Hp (or_introl eq_refl)).
    assert (Hu : forall s u, In u (p_ranks Pw) -> (paired Px Pw false false s u <-> s = src u)).
    { intros s u Hin. pose proof HA as (H1 & H2 & H3 & H4 & H5).
      assert (Cp : forall s, paired Px Pw false false s u <-> s = csrc Px Pw false false u) by (intros; apply csrc_paired; auto).
      rewrite Cp. pose proof (Hp u Hin) as E. apply Cp in E. now rewrite E. }
    destruct (HC R x bcon) as (A & B & C & _).
    - intros v Hv. destruct (HX v); tauto.
    - intros v Hv. destruct (in_dec Z.eq_dec v (p_ranks Pw)) as [Hw|Hw].
      + destruct (bcon_teq v Hw) as [E _]. rewrite E. destruct (back_shape v Hw) as (s & _ & _ & N & NE). auto.
      + destruct Hv as [Hv|Hv]; [|contradiction]. destruct (bcon_other v Hw) as (N & NE & _); auto.
    - intros d Hd. destruct (work_bc Px Pw Py same_xw dt dt' rg rg' x HA HX) as (A' & _ & _). destruct (A' d Hd) as (s & t & Hs & E' & T').
      rewrite E'. cbn [val]. destruct (bcon_teq d Hd) as [-> _]. rewrite (HT s d Hs). symmetry. apply T'.
    - split; [|split].
      + intros s us Hs [Hn Hus]. rewrite Hrun by auto. destruct (B s Hs) as (t & E & T1 & T2). exists t. split; auto. split; auto.
        intros i Hi. rewrite T1 in Hi. rewrite T2 by auto. rewrite (sumf_perm _ us).
        * apply sumf_ext. intros u Hin. apply Hus in Hin. pose proof (pw_in Hin) as Hw. destruct (bcon_teq u Hw) as [E' V].
          apply V. rewrite E', (HT s u Hin). auto.
        * apply NoDup_Permutation; auto.
          -- apply NoDup_filter. apply HA.
          -- intros u. rewrite filter_In, Hus. split.
             ++ intros [Hin Eq]. apply Z.eqb_eq in Eq. apply Hu; auto.
             ++ intros Hin. pose proof (pw_in Hin) as Hw. split; auto. apply Z.eqb_eq. symmetry. now apply Hu.
      + intros v Hv Hn. rewrite Hrun by tauto. destruct (in_dec Z.eq_dec v (p_ranks Pw)) as [Hw|Hw].
        * destruct (C v Hn Hw) as (t & E & T). exists t, (batch_of (bcon v)). split; auto. split; auto.
          apply batch_nonneg. destruct (bcon_teq v Hw) as [-> _]. destruct (back_shape v Hw) as (s & _ & _ & N & _). exact N.
        * destruct Hv as [Hv|Hv]; [contradiction|]. unfold broadcast_layer_backward, layer_backward.
          assert (I : is_identity same_xw Px false false v = false).
          { destruct (is_identity same_xw Px false false v) eqn:I; auto. apply identity_active in I. contradiction. }
          rewrite I, inactive_or by auto. destruct work_cot as (_ & Bc & _). destruct (Bc v Hw Hv) as (t & E & T).
          exists (bcon v), (batch_of (dy v)). split; auto. split; [|apply batch_nonneg; now apply HY; auto].
          unfold bcon, work_back_contribution, work_back_local.
          pose proof Hw as Hw'. apply is_active_false in Hw'. rewrite Hw'. fold cot. now rewrite E.
      + intros v Hx Hw Hy. unfold work_backward. apply is_active_false in Hx, Hw, Hy. now rewrite Hx, Hw, Hy.
  Qed.
End Work.
