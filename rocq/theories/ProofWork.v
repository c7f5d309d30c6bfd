(** The pattern broadcast, local layer, sum-reduction. *)

From Verif Require Import Prelude SpecIndex SpecPartition ModelSlicing ModelPartition ProofPartition Ring Tensor
  ModelCollectives ProofCollectives PropCollectives ModelLinear.

(** The list [us] has the workers of P_w that contribute to [d], each once. *)
Definition contributors (Py Pw : part) (ts : bool) (d : Z) (us : list Z) : Prop :=
  NoDup us /\ forall u, In u us <-> paired Py Pw false ts d u.

Lemma batch_nonneg {R : CRing} (t : tensor R) : nonneg_shape (tshape t) -> 0 <= batch_of t.
Proof. unfold batch_of. destruct 1; cbn [hd]; lia. Qed.

Section Work.
  Context {R : CRing}.
  Variables Px Pw Py : part.
  Variables same_xw same_wy ts : bool.
  Variables (dt dt' : Z -> Z) (rg rg' : Z -> bool).
  Variable local : Z -> tensor R -> result (tensor R).
  Variable x : Z -> tensor R.
  Variable out : Z -> tensor R.      (* what the local layers compute *)

  Hypothesis HA : bc_accepted Px Pw false false same_xw.
  Hypothesis HD : rd_accepted Pw Py ts false same_wy.
  Hypothesis HF : bc_flags Py ts false.
  Hypothesis HX : forall v, In v (p_ranks Px) \/ In v (p_ranks Pw) \/ In v (p_ranks Py) ->
    nonneg_shape (tshape (x v)) /\ tshape (x v) <> [].
  Hypothesis HL : forall s u t, paired Px Pw false false s u -> broadcast_layer Px Pw same_xw false false true dt rg x u = Ok t -> teq t (x s) ->
    exists t', local u t = Ok t' /\ teq t' (out u).
  Hypothesis HO : forall u, In u (p_ranks Pw) -> nonneg_shape (tshape (out u)) /\ tshape (out u) <> [].
  Hypothesis HS : forall d u u', paired Py Pw false ts d u -> paired Py Pw false ts d u' -> tshape (out u) = tshape (out u').

  Lemma work_bc : let y := broadcast_layer Px Pw same_xw false false true dt rg x in
    (forall d, In d (p_ranks Pw) -> exists s t, paired Px Pw false false s d /\ y d = Ok t /\ teq t (x s)) /\
    (forall v, In v (p_ranks Px) -> ~ In v (p_ranks Pw) -> zero_vol true (batch_of (x v)) (y v)) /\
    (forall v, ~ In v (p_ranks Px) -> ~ In v (p_ranks Pw) -> y v = Ok (x v)).
  Proof.
    destruct (C14_proof R Px Pw same_xw false false true dt rg x HA (or_introl eq_refl)) as (A & B & C).
    { intros v Hv. destruct (HX v) as [E1 E2]; [tauto|]. auto. }
    split; [|auto]. intros d Hd. destruct (A d Hd) as [[s Hs] A']. destruct (A' s Hs) as (t & E & T). eauto.
  Qed.

  Lemma work_ok v : In v (p_ranks Pw) ->
    exists t, work_local Px Pw same_xw dt rg local x v = Ok t /\ teq t (out v).
  Proof.
    intros Hv. destruct work_bc as (A & _ & _). destruct (A v Hv) as (s & t & Hs & E & T).
    destruct (HL s v t Hs E T) as (t' & E' & T'). unfold work_local. rewrite E. cbn [rbind].
    apply is_active_spec in Hv. rewrite Hv. eauto.
  Qed.

  Lemma work_other v : In v (p_ranks Px) -> ~ In v (p_ranks Pw) ->
    exists t, work_local Px Pw same_xw dt rg local x v = Ok t /\ tshape t = [batch_of (x v); 0].
  Proof.
    intros Hv Hn. destruct work_bc as (_ & B & _). destruct (B v Hv Hn) as (t & E & T).
    unfold work_local. rewrite E. cbn [rbind]. apply is_active_false in Hn. rewrite Hn. eauto.
  Qed.

  Lemma work_outside v : ~ In v (p_ranks Px) -> ~ In v (p_ranks Pw) ->
    work_local Px Pw same_xw dt rg local x v = Ok (x v).
  Proof.
    intros Hx Hn. destruct work_bc as (_ & _ & C). pose proof (C v Hx Hn) as E.
    unfold work_local. rewrite E. cbn [rbind]. apply is_active_false in Hn. now rewrite Hn.
  Qed.

  Let contrib := work_contribution Px Pw same_xw dt rg local x.

  Lemma contrib_teq v : In v (p_ranks Pw) -> teq (contrib v) (out v).
  Proof.
    intros Hv. destruct (work_ok v Hv) as (t & E & T). unfold contrib, work_contribution. now rewrite E.
  Qed.

  Lemma work_any v : exists t, work_local Px Pw same_xw dt rg local x v = Ok t.
  Proof.
    destruct (in_dec Z.eq_dec v (p_ranks Pw)) as [Hw|Hw]; [destruct (work_ok v Hw) as (t & E & _); eauto|].
    destruct (in_dec Z.eq_dec v (p_ranks Px)) as [Hx|Hx]; [destruct (work_other v Hx Hw) as (t & E & _); eauto|].
    rewrite work_outside by auto. eauto.
  Qed.

  Lemma contrib_shapes : shapes_ok Pw Py true contrib.
  Proof.
    intros v Hv. destruct (in_dec Z.eq_dec v (p_ranks Pw)) as [Hw|Hw].
    { destruct (contrib_teq v Hw) as [E _]. rewrite E. destruct (HO v Hw). auto. }
    destruct Hv as [Hv|Hv]; [contradiction|].
    destruct (in_dec Z.eq_dec v (p_ranks Px)) as [Hx|Hx].
    - destruct (work_other v Hx Hw) as (t & E & T). unfold contrib, work_contribution. rewrite E, T.
      split; [|discriminate]. destruct (HX v) as [N NE]; [auto|]. unfold batch_of.
      destruct (tshape (x v)) as [|b r]; [congruence|]. inversion N; subst. repeat (constructor; auto). lia.
    - unfold contrib, work_contribution. rewrite work_outside by auto. destruct (HX v) as [N NE]; auto.
  Qed.

  (** The workers of P_y get the sums; all others nothing or their inputs. *)
  Lemma work_sum :
    (forall d us, In d (p_ranks Py) -> contributors Py Pw ts d us ->
       exists t, work_forward Px Pw Py same_xw same_wy ts dt dt' rg rg' local x d = Ok t /\
         (forall u, In u us -> tshape t = tshape (out u)) /\
         forall i, valid_index (tshape t) i -> tat t i = sumf us (fun u => tat (out u) i)) /\
    (forall v, In v (p_ranks Pw) -> ~ In v (p_ranks Py) ->
       exists t n, work_forward Px Pw Py same_xw same_wy ts dt dt' rg rg' local x v = Ok t /\ tshape t = [n; 0] /\ 0 <= n) /\
    (forall v, In v (p_ranks Px) -> ~ In v (p_ranks Pw) -> ~ In v (p_ranks Py) ->
       exists t n, work_forward Px Pw Py same_xw same_wy ts dt dt' rg rg' local x v = Ok t /\ tshape t = [n; 0] /\ 0 <= n) /\
    (forall v, ~ In v (p_ranks Px) -> ~ In v (p_ranks Pw) -> ~ In v (p_ranks Py) ->
       work_forward Px Pw Py same_xw same_wy ts dt dt' rg rg' local x v = Ok (x v)).
  Proof.
    assert (Hrun : forall v, In v (p_ranks Px) \/ In v (p_ranks Pw) \/ In v (p_ranks Py) ->
      work_forward Px Pw Py same_xw same_wy ts dt dt' rg rg' local x v =
      sum_reduce_layer Pw Py same_wy ts false true dt' rg' contrib v).
    { intros v Hv. unfold work_forward.
      replace (is_active (p_ranks Px) v || is_active (p_ranks Py) v || is_active (p_ranks Pw) v) with true.
      - cbn [negb]. destruct (work_any v) as [t ->]. reflexivity.
      - symmetry. destruct Hv as [H|[H|H]]; apply is_active_spec in H; rewrite H; auto using orb_true_r.
        now rewrite orb_true_r. }
    destruct (C16_proof Pw Py same_wy ts false true dt' rg' HD) as (dst & Hdst & Hp & HC).
    specialize (Hp HF). destruct (HC R contrib contrib_shapes) as (A & B & C & _).
    { intros s s' Hs Hs' E. destruct (contrib_teq s Hs) as [-> _], (contrib_teq s' Hs') as [-> _].
      apply (HS (dst s)); apply Hp; auto. }
    split; [|split; [|split]].
    - intros d us Hd [Hn Hus]. rewrite Hrun by auto. destruct (A d Hd) as (t & E & T1 & T2). exists t. split; [auto|].
      assert (Hw : forall u, paired Py Pw false ts d u -> In u (p_ranks Pw)).
      { intros u (si & di & _ & Hu & _). now apply worker_at_In in Hu. }
      split.
      + intros u Hu. apply Hus in Hu. pose proof (Hw u Hu) as Hin. rewrite (T1 u); auto.
        * apply (contrib_teq u Hin).
        * symmetry. now apply Hp.
      + intros i Hi. rewrite T2 by auto.
        rewrite (sumf_perm _ us).
        * apply sumf_ext. intros u Hu. apply Hus in Hu. pose proof (Hw u Hu) as Hin. destruct (contrib_teq u Hin) as [E' V].
          apply V. rewrite <- (T1 u); auto. symmetry. now apply Hp.
        * apply NoDup_Permutation; auto.
          -- apply NoDup_filter. apply HD.
          -- intros u. rewrite filter_In, Hus. split.
             ++ intros [Hin Eq]. apply Z.eqb_eq in Eq. apply Hp; auto.
             ++ intros Hu. pose proof (Hw u Hu) as Hin. split; auto. apply Z.eqb_eq. symmetry. now apply Hp.
    - intros v Hv Hn. rewrite Hrun by auto. destruct (B v Hv Hn) as (t & E & T). exists t, (batch_of (contrib v)). split; auto. split; auto.
      apply batch_nonneg. destruct (contrib_teq v Hv) as [-> _]. now apply HO.
    - intros v Hx Hw Hn. rewrite Hrun by auto. rewrite (C v Hw Hn). unfold contrib, work_contribution.
      destruct (work_other v Hx Hw) as (t & -> & T). exists t, (batch_of (x v)). split; auto. split; auto.
      apply batch_nonneg. now apply HX; left.
    - intros v Hx Hw Hy. unfold work_forward. apply is_active_false in Hx, Hw, Hy. now rewrite Hx, Hw, Hy.
  Qed.
End Work.
