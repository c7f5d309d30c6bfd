(** Lemmas about Broadcast, SumReduce and AllSumReduce (C14-C17, C40). *)

From Coq Require Import Sorting.Permutation.
From Verif Require Import Prelude ModelSlicing ModelPartition ModelCollectives SpecIndex SpecPartition
  ProofSlicing ProofPartition PropPartition Ring Tensor.

Lemma same_comm_spec a b : same_comm a b = true <-> exists g, a = Some g /\ b = Some g.
Proof.
  destruct a as [g|], b as [h|]; simpl; split; try discriminate; try (intros (? & ? & ?); discriminate).
  - intros H. apply zlist_eqb_eq in H. subst. eauto.
  - intros (x & E1 & E2). inv E1. inv E2. apply zlist_eqb_refl.
Qed.

Lemma on_comm_spec a g : on_comm a g = true <-> a = Some g.
Proof.
  unfold on_comm. rewrite same_comm_spec. split.
  - intros (h & -> & E). congruence.
  - intros ->. eauto.
Qed.

Lemma on_comm_false a g : on_comm a g = false <-> a <> Some g.
Proof. rewrite <- on_comm_spec. destruct (on_comm a g); split; congruence. Qed.

(** Groups between a side of roots [S] and a side of leaves [D]: every root has
    one group, made of itself and the leaves attached to it; a leaf is in its
    root's group. *)
Record cross_wf (S D : list Z) (rs ls : Z -> option (list Z)) (src : Z -> Z) : Prop := {
  cw_nodup_S : NoDup S;
  cw_nodup_D : NoDup D;
  cw_src : forall d, In d D -> In (src d) S;
  cw_root : forall s, In s S -> exists g, rs s = Some (s :: g) /\ NoDup (s :: g) /\
     forall d, In d g <-> d <> s /\ In d D /\ src d = s;
  cw_root_none : forall s, ~ In s S -> rs s = None;
  cw_leaf : forall d, In d D -> ls d = rs (src d);
  cw_leaf_none : forall d, ~ In d D -> ls d = None
}.

Lemma contributions_ok {A} g (f : Z -> option A) (h : Z -> A) :
  (forall m, In m g -> f m = Some (h m)) -> contributions g f = Ok (map h g).
Proof. intros H. unfold contributions. apply rmap_ok. intros m Hm. now rewrite H. Qed.

Section Cross.
  Variables (S D : list Z) (rs ls : Z -> option (list Z)) (src : Z -> Z).
  Hypothesis W : cross_wf S D rs ls src.

  Lemma cw_leaf_on s g d : In s S -> rs s = Some g -> (ls d = Some g <-> In d D /\ src d = s).
  Proof.
    intros Hs Hg. split.
    - intros E. destruct (in_dec Z.eq_dec d D) as [I|I].
      2:{ rewrite (cw_leaf_none _ _ _ _ _ W d I) in E. discriminate. }
      split; auto. rewrite (cw_leaf _ _ _ _ _ W d I) in E.
      destruct (cw_root _ _ _ _ _ W s Hs) as (g1 & E1 & _).
      destruct (cw_root _ _ _ _ _ W (src d)) as (g2 & E2 & _); [now apply W|]. congruence.
    - intros [I <-]. now rewrite (cw_leaf _ _ _ _ _ W d I).
  Qed.

  Lemma cw_root_on s g m : In s S -> rs s = Some g -> (rs m = Some g <-> m = s).
  Proof.
    intros Hs Hg. split; [|congruence]. intros E.
    destruct (cw_root _ _ _ _ _ W s Hs) as (g1 & E1 & _).
    destruct (in_dec Z.eq_dec m S) as [I|I].
    - destruct (cw_root _ _ _ _ _ W m I) as (g2 & E2 & _). congruence.
    - rewrite (cw_root_none _ _ _ _ _ W m I) in E. discriminate.
  Qed.

  Lemma cw_member s g m : In s S -> rs s = Some g -> In m g ->
    (In m D /\ src m = s) \/ m = s.
  Proof.
    intros Hs Hg Hm. destruct (cw_root _ _ _ _ _ W s Hs) as (g1 & E1 & _ & H).
    rewrite E1 in Hg. inv Hg. destruct Hm as [->|Hm]; auto. apply H in Hm. tauto.
  Qed.

  Lemma cw_same d : In d D -> same_comm (rs d) (ls d) = true -> src d = d.
  Proof.
    intros Hd H. apply same_comm_spec in H as (g & E1 & E2).
    rewrite (cw_leaf _ _ _ _ _ W d Hd) in E2.
    assert (Hs : In (src d) S) by now apply W.
    symmetry. apply (cw_root_on (src d) g d Hs E2). exact E1.
  Qed.

  Lemma cw_head s g : In s S -> rs s = Some g -> exists g', g = s :: g'.
  Proof.
    intros Hs Hg. destruct (cw_root _ _ _ _ _ W s Hs) as (g1 & E1 & _). exists g1. congruence.
  Qed.

  Context {R : CRing}.
  Add Ring R_ring : (rth R).

  (** The sum of the leaves attached to [s]. *)
  Definition leaf_sum (y : Z -> tensor R) (s : Z) (i : list Z) : R :=
    sumf (filter (fun d => src d =? s) D) (fun d => tat (y d) i).

  (** Broadcasting within the groups. *)
  Lemma cross_bcast (x : Z -> tensor R) buf d : In d D ->
    same_comm (rs d) (ls d) = false -> buf = tshape (x (src d)) ->
    match ls d with
    | Some g => ibcast g (fun r => if on_comm (rs r) g then Some (x r) else None) buf
    | None => Raise ErrComm
    end = Ok (x (src d)).
  Proof.
    intros Hd Hne ->. rewrite (cw_leaf _ _ _ _ _ W d Hd).
    assert (Hs : In (src d) S) by now apply W.
    destruct (cw_root _ _ _ _ _ W (src d) Hs) as (g & E & _). rewrite E. unfold ibcast.
    rewrite (proj2 (on_comm_spec _ _) E). now rewrite zlist_eqb_refl.
  Qed.

  (** Reducing within the groups. *)
  Lemma cross_reduce (y : Z -> tensor R) zs s g buf : In s S -> rs s = Some g ->
    (forall d, In d D -> src d = s -> tshape (y d) = buf) -> zs s = buf ->
    exists t, ireduce g (fun m => if on_comm (ls m) g then Some (y m)
                        else if on_comm (rs m) g then Some (tzeros (zs m)) else None) buf = Ok t /\
      tshape t = buf /\ forall i, tat t i = leaf_sum y s i.
  Proof.
    intros Hs Hg Hy Hz.
    set (h := fun m => if on_comm (ls m) g then y m else tzeros (zs m)).
    unfold ireduce. rewrite (contributions_ok g _ h).
    2:{ intros m Hm. unfold h. destruct (on_comm (ls m) g) eqn:E; auto.
        destruct (cw_member s g m Hs Hg Hm) as [H| ->].
        - apply (cw_leaf_on s g m Hs Hg) in H. apply on_comm_spec in H. congruence.
        - now rewrite (proj2 (on_comm_spec _ _) Hg). }
    cbn [rbind]. replace (forallb _ (map h g)) with true.
    2:{ symmetry. apply forallb_forall. intros t Ht. apply in_map_iff in Ht as (m & <- & Hm).
        apply zlist_eqb_eq. unfold h. destruct (on_comm (ls m) g) eqn:E.
        - apply on_comm_spec, (cw_leaf_on s g m Hs Hg) in E as [E1 E2]. now apply Hy.
        - destruct (cw_member s g m Hs Hg Hm) as [H| ->]; auto.
          apply (cw_leaf_on s g m Hs Hg) in H. apply on_comm_spec in H. congruence. }
    eexists. split; [reflexivity|]. cbn [tshape tat]. split; auto. intros i.
    rewrite sumf_map. unfold leaf_sum.
    transitivity (sumf g (fun m => if on_comm (ls m) g then tat (y m) i else rzero)).
    { apply sumf_ext. intros m Hm. unfold h. now destruct (on_comm (ls m) g). }
    rewrite <- (sumf_filter (fun m => on_comm (ls m) g) g).
    apply sumf_perm, NoDup_Permutation.
    - apply NoDup_filter. destruct (cw_root _ _ _ _ _ W s Hs) as (g1 & E1 & HN & _). congruence.
    - apply NoDup_filter, W.
    - intros d. rewrite !filter_In, on_comm_spec, (cw_leaf_on s g d Hs Hg), Z.eqb_eq.
      split; [tauto|]. intros [H1 H2]. split; auto.
      destruct (cw_root _ _ _ _ _ W s Hs) as (g1 & E1 & _ & H). rewrite E1 in Hg. inv Hg.
      destruct (Z.eq_dec d (src d)) as [E|E]; [left; congruence|right]. apply H. auto.
  Qed.

  (** Adjointness of the two movements. *)
  Lemma cross_adjoint (x y u v : Z -> tensor R) :
    (forall d, In d D -> teq (u d) (x (src d))) ->
    (forall d, In d D -> tshape (y d) = tshape (x (src d))) ->
    (forall s, In s S -> tshape (v s) = tshape (x s) /\
       forall i, valid_index (tshape (x s)) i -> tat (v s) i = leaf_sum y s i) ->
    sumf D (fun d => inner (u d) (y d)) = sumf S (fun s => inner (x s) (v s)).
  Proof.
    intros Hu Hy Hv.
    transitivity (sumf D (fun d => inner (x (src d)) (y d))).
    { apply sumf_ext. intros d Hd. now apply inner_teq_l, Hu. }
    transitivity (sumf S (fun s => sumf D (fun d => if Z.eq_dec (src d) s then inner (x (src d)) (y d) else rzero))).
    { rewrite sumf_fibres; auto; apply W. }
    apply sumf_ext. intros s Hs. destruct (Hv s Hs) as [E H]. unfold inner.
    transitivity (sumf (indices (tshape (x s))) (fun i => (tat (x s) i * leaf_sum y s i)%R)).
    - transitivity (sumf D (fun d => sumf (indices (tshape (x s)))
         (fun i => (tat (x s) i * (if src d =? s then tat (y d) i else rzero))%R))).
      + apply sumf_ext. intros d Hd. destruct (Z.eq_dec (src d) s) as [<-|N].
        * rewrite Z.eqb_refl. reflexivity.
        * symmetry. apply sumf_zero. intros i _. apply Z.eqb_neq in N. rewrite N. ring.
      + rewrite sumf_exchange. apply sumf_ext. intros i Hi. unfold leaf_sum.
        rewrite sumf_filter, <- sumf_mul_l. reflexivity.
    - apply sumf_ext. intros i Hi. apply in_indices in Hi. now rewrite H.
  Qed.
End Cross.

(** The source worker with the colour of [d]. *)
Definition csrc (Ps Pd : part) (ts td : bool) (d : Z) : Z :=
  match find (fun s => scol Ps Pd ts td s =? dcol Ps Pd ts td d) (p_ranks Ps) with
  | Some s => s
  | None => d
  end.

Section Runs.
  Variables (Ps Pd : part) (ts td : bool).
  Hypothesis H1 : part_ok Ps.
  Hypothesis H2 : part_ok Pd.
  Hypothesis HR : p_root Ps = p_root Pd.
  Hypothesis HC : bc_compatible (flip ts (p_shape Ps)) (flip td (p_shape Pd)).

  Lemma csrc_spec d : In d (p_ranks Pd) ->
    In (csrc Ps Pd ts td d) (p_ranks Ps) /\
    scol Ps Pd ts td (csrc Ps Pd ts td d) = dcol Ps Pd ts td d.
  Proof.
    intros Hd. destruct (source_of Ps Pd ts td H1 H2 HC d Hd) as (s & Hs & E). unfold csrc.
    destruct (find _ _) as [s'|] eqn:F.
    - apply find_some in F as [F1 F2]. apply Z.eqb_eq in F2. auto.
    - apply find_none with (x := s) in F; auto. apply Z.eqb_neq in F. congruence.
  Qed.

  Lemma csrc_unique s d : In s (p_ranks Ps) -> In d (p_ranks Pd) ->
    (csrc Ps Pd ts td d = s <-> scol Ps Pd ts td s = dcol Ps Pd ts td d).
  Proof.
    intros Hs Hd. destruct (csrc_spec d Hd) as [I E]. split.
    - intros <-. auto.
    - intros E'. apply (scol_inj Ps Pd ts td); auto. congruence.
  Qed.

  Lemma csrc_surj s : In s (p_ranks Ps) -> exists d, In d (p_ranks Pd) /\ csrc Ps Pd ts td d = s.
  Proof.
    intros Hs. destruct (leaf_of Ps Pd ts td H1 H2 HC s Hs) as (d & Hd & E).
    exists d. split; auto. apply csrc_unique; auto.
  Qed.

  (** Colours on any ordering of the union give well-formed groups. *)
  Lemma colours_wf U rs ls : NoDup U ->
    (forall v, In v U <-> In v (p_ranks Ps) \/ In v (p_ranks Pd)) ->
    (forall v, In v (p_ranks Ps) \/ In v (p_ranks Pd) ->
       rs v = option_map (incl_ranks U) (send_of Ps Pd ts td U v) /\
       ls v = option_map (incl_ranks U) (recv_of Ps Pd ts td U v)) ->
    (forall v, ~ In v (p_ranks Ps) -> ~ In v (p_ranks Pd) -> rs v = None /\ ls v = None) ->
    cross_wf (p_ranks Ps) (p_ranks Pd) rs ls (csrc Ps Pd ts td).
  Proof.
    intros HN HU HE HI. split.
    - apply H1.
    - apply H2.
    - intros d Hd. now apply csrc_spec.
    - intros s Hs. destruct (HE s (or_introl Hs)) as [-> _].
      destruct (send_of_active Ps Pd ts td H1 HC U HN HU s Hs) as [_ ->].
      eexists. split; [reflexivity|]. split; [now apply colour_group_nodup|].
      intros d.
      assert (X := colour_group_in U (dcol Ps Pd ts td) s (scol Ps Pd ts td s) d).
      assert (Y := colour_group_nodup U (dcol Ps Pd ts td) s (scol Ps Pd ts td s) HN).
      unfold colour_group in X, Y. inversion Y as [|? ? Y1 Y2]. subst.
      split.
      + intros Hd. assert (Nd : d <> s) by (intros ->; contradiction).
        destruct (proj1 X (or_intror Hd)) as [E|[Hu E]]; [contradiction|].
        destruct (in_dec Z.eq_dec d (p_ranks Pd)) as [I|I].
        * split; auto. split; auto. apply csrc_unique; auto.
        * rewrite dcol_neg in E by auto.
          pose proof (scol_nonneg Ps Pd ts td H1 s Hs). lia.
      + intros (Nd & Hd & E). apply csrc_unique in E; auto.
        destruct (proj2 X) as [E'|Hin]; auto.
        * right. split; [apply HU; auto|congruence].
        * congruence.
    - intros s Hs. destruct (in_dec Z.eq_dec s (p_ranks Pd)) as [I|I].
      + destruct (HE s (or_intror I)) as [-> _]. now rewrite send_of_inactive.
      + now apply HI.
    - intros d Hd. destruct (csrc_spec d Hd) as [Hs E].
      destruct (HE d (or_intror Hd)) as [_ ->]. destruct (HE _ (or_introl Hs)) as [-> _].
      destruct (recv_of_active Ps Pd ts td H1 H2 HC U HN HU d Hd) as [_ (r & [Hr1 Hr2] & ->)].
      destruct (send_of_active Ps Pd ts td H1 HC U HN HU _ Hs) as [_ ->].
      assert (r = csrc Ps Pd ts td d) as -> by (symmetry; now apply csrc_unique).
      now rewrite E.
    - intros d Hd. destruct (in_dec Z.eq_dec d (p_ranks Ps)) as [I|I].
      + destruct (HE d (or_introl I)) as [_ ->]. now rewrite recv_of_inactive.
      + now apply HI.
  Qed.

  Lemma broadcast_cross_wf :
    cross_wf (p_ranks Ps) (p_ranks Pd)
      (send_groups (create_broadcast_partition_to Ps Pd ts td))
      (recv_groups (create_broadcast_partition_to Ps Pd ts td)) (csrc Ps Pd ts td).
  Proof.
    set (U := group_union (p_ranks Ps) (p_ranks Pd)).
    assert (HU : forall u, In u U <-> In u (p_ranks Ps) \/ In u (p_ranks Pd)) by (intros; apply group_union_in).
    apply (colours_wf U); auto.
    - apply group_union_nodup; [apply H1|apply H2].
    - intros v Hv. unfold send_groups, recv_groups.
      destruct (broadcast_run Ps Pd ts td H1 H2 HR HC v) as (calls & _ & ->); [now apply HU|]. auto.
    - intros v I1 I2. unfold send_groups, recv_groups. now rewrite bc_inactive.
  Qed.

  Lemma rd_inactive v : ~ In v (p_ranks Ps) -> ~ In v (p_ranks Pd) ->
    create_reduction_partition_to Pd Ps td ts v = Ok (mkcross None None []).
  Proof.
    intros I1 I2. unfold create_reduction_partition_to.
    apply is_active_false in I1, I2. now rewrite I1, I2.
  Qed.

  Lemma reduction_cross_wf :
    cross_wf (p_ranks Ps) (p_ranks Pd)
      (recv_groups (create_reduction_partition_to Pd Ps td ts))
      (send_groups (create_reduction_partition_to Pd Ps td ts)) (csrc Ps Pd ts td).
  Proof.
    set (U := group_union (p_ranks Pd) (p_ranks Ps)).
    assert (HU : forall u, In u U <-> In u (p_ranks Ps) \/ In u (p_ranks Pd))
      by (intros; unfold U; rewrite group_union_in; tauto).
    apply (colours_wf U); auto.
    - apply group_union_nodup; [apply H2|apply H1].
    - intros v Hv. unfold send_groups, recv_groups.
      destruct (reduction_run Ps Pd ts td H1 H2 HR HC v) as (calls & _ & ->); [now apply HU|]. auto.
    - intros v I1 I2. unfold send_groups, recv_groups. now rewrite rd_inactive.
  Qed.

  (** With equal flags, or at most one non-trivial dimension, the source of [d]
      is the one paired with it. *)
  Lemma csrc_paired d s : (ts = td \/ at_most_one_nontrivial (p_shape Ps)) ->
    In d (p_ranks Pd) -> (paired Ps Pd ts td s d <-> s = csrc Ps Pd ts td d).
  Proof.
    intros HT Hd. rewrite paired_scol; auto.
    - split.
      + intros (Hs & _ & E). symmetry. now apply csrc_unique.
      + intros ->. destruct (csrc_spec d Hd). auto.
    - destruct HT as [->|HA]; auto. apply flat_agree_of_amo, matched_amo; auto.
  Qed.

  Lemma runs_ok v : exists c, create_broadcast_partition_to Ps Pd ts td v = Ok c.
  Proof.
    destruct (in_dec Z.eq_dec v (p_ranks Ps)) as [I|I], (in_dec Z.eq_dec v (p_ranks Pd)) as [J|J];
      try (destruct (broadcast_run Ps Pd ts td H1 H2 HR HC v) as (calls & _ & ->);
           [apply group_union_in; solve [auto]|eauto; fail]).
    rewrite bc_inactive by auto. eauto.
  Qed.

  Lemma runs_ok_rd v : exists c, create_reduction_partition_to Pd Ps td ts v = Ok c.
  Proof.
    destruct (in_dec Z.eq_dec v (p_ranks Ps)) as [I|I], (in_dec Z.eq_dec v (p_ranks Pd)) as [J|J];
      try (destruct (reduction_run Ps Pd ts td H1 H2 HR HC v) as (calls & _ & ->);
           [apply group_union_in; solve [auto]|eauto; fail]).
    rewrite rd_inactive by auto. eauto.
  Qed.
End Runs.

(** * Structure exchange *)

Lemma fold_max_le a r t : a <= t -> (forall b, In b r -> b <= t) -> fold_right Z.max a r <= t.
Proof.
  intros Ha Hr. induction r as [|b r IH]; simpl; auto.
  apply Z.max_lub; [apply Hr; now left|]. apply IH. intros c Hc. apply Hr. now right.
Qed.

Lemma fold_max_eq a r t : (forall b, In b (a :: r) -> b <= t) -> In t (a :: r) ->
  fold_right Z.max a r = t.
Proof.
  intros Hr Hin. assert (Ha : a <= t) by (apply Hr; now left).
  assert (Hr' : forall b, In b r -> b <= t) by (intros b Hb; apply Hr; now right).
  clear Hr. destruct Hin as [->|Hin].
  - clear Ha. induction r as [|b r IH]; simpl; auto. rewrite IH.
    + assert (b <= t) by (apply Hr'; now left). lia.
    + intros c Hc. apply Hr'. now right.
  - induction r as [|b r IH]; [easy|]. simpl. destruct Hin as [->|Hin].
    + assert (fold_right Z.max a r <= t); [|lia]. apply fold_max_le; auto.
      intros c Hc. apply Hr'. now right.
    + rewrite IH; auto.
      * assert (b <= t) by (apply Hr'; now left). lia.
      * intros c Hc. apply Hr'. now right.
Qed.

Lemma iallreduce_max_ok g contrib h t : (forall m, In m g -> contrib m = Some (h m)) ->
  (forall m, In m g -> h m <= t) -> (exists m, In m g /\ h m = t) ->
  iallreduce_max g contrib = Ok t.
Proof.
  intros H1 H2 (m & Hm & Em). unfold iallreduce_max. rewrite (contributions_ok g _ h) by auto.
  cbn [rbind]. assert (Hin : In t (map h g)) by (rewrite <- Em; now apply in_map).
  destruct (map h g) as [|a r] eqn:E; [easy|]. f_equal. apply fold_max_eq; auto.
  intros b Hb. rewrite <- E in Hb. apply in_map_iff in Hb as (k & <- & Hk). auto.
Qed.

Lemma map2_max_le a b t : Forall2 Z.le a t -> Forall2 Z.le b t -> Forall2 Z.le (map2 Z.max a b) t.
Proof.
  intros Ha. revert b. induction Ha as [|x y a t Hx Ha IH]; intros b Hb; inv Hb; constructor; auto.
  now apply Z.max_lub.
Qed.

Lemma map2_max_l a t : Forall2 Z.le a t -> map2 Z.max t a = t.
Proof. induction 1; simpl; auto. f_equal; auto. lia. Qed.

Lemma map2_max_r a t : Forall2 Z.le a t -> map2 Z.max a t = t.
Proof. induction 1; simpl; auto. f_equal; auto. lia. Qed.

Lemma Forall2_le_refl t : Forall2 Z.le t t.
Proof. induction t; constructor; auto; lia. Qed.

Lemma fold_max_array_eq r a t : (forall b, In b (a :: r) -> Forall2 Z.le b t) -> In t (a :: r) ->
  fold_right (map2 Z.max) a r = t.
Proof.
  intros Hr Hin. assert (Ha : Forall2 Z.le a t) by (apply Hr; now left).
  assert (Hr' : forall b, In b r -> Forall2 Z.le b t) by (intros b Hb; apply Hr; now right).
  clear Hr.
  assert (HL : Forall2 Z.le (fold_right (map2 Z.max) a r) t).
  { clear Hin. induction r as [|b r IH]; simpl; auto. apply map2_max_le.
    - apply Hr'. now left.
    - apply IH. intros c Hc. apply Hr'. now right. }
  destruct Hin as [->|Hin].
  - clear Ha HL. induction r as [|b r IH]; simpl; auto. rewrite IH.
    + apply map2_max_r, Hr'. now left.
    + intros c Hc. apply Hr'. now right.
  - clear HL. induction r as [|b r IH]; [easy|]. simpl. destruct Hin as [->|Hin].
    + apply map2_max_l. clear IH. assert (Hr2 : forall c, In c r -> Forall2 Z.le c t)
        by (intros c Hc; apply Hr'; now right). clear Hr'.
      induction r as [|c r IH]; simpl; auto. apply map2_max_le; [apply Hr2; now left|].
      apply IH. intros c' Hc. apply Hr2. now right.
    + rewrite IH; auto.
      * apply map2_max_r, Hr'. now left.
      * intros c Hc. apply Hr'. now right.
Qed.

Lemma iallreduce_max_array_ok g contrib h t : (forall m, In m g -> contrib m = Some (h m)) ->
  (forall m, In m g -> Forall2 Z.le (h m) t) -> (exists m, In m g /\ h m = t) ->
  iallreduce_max_array g contrib = Ok t.
Proof.
  intros H1 H2 (m & Hm & Em). unfold iallreduce_max_array. rewrite (contributions_ok g _ h) by auto.
  cbn [rbind]. assert (Hin : In t (map h g)) by (rewrite <- Em; now apply in_map).
  assert (HF : forall b, In b (map h g) -> Forall2 Z.le b t)
    by (intros b Hb; apply in_map_iff in Hb as (k & <- & Hk); auto).
  destruct (map h g) as [|a r] eqn:E; [easy|].
  replace (forallb _ r) with true.
  - f_equal. now apply fold_max_array_eq.
  - symmetry. apply forallb_forall. intros b Hb. apply Nat.eqb_eq.
    rewrite (Forall2_length _ _ _ (HF b (or_intror Hb))), (Forall2_length _ _ _ (HF a (or_introl eq_refl))).
    reflexivity.
Qed.

Lemma structure_delivered st snd rcv v g tau : rcv v = Some g -> In v g ->
  (forall m, In m g -> snd m = Some g \/ rcv m = Some g) ->
  (exists m, In m g /\ snd m = Some g) ->
  (forall m, In m g -> snd m = Some g -> st m = tau) ->
  nonneg_shape (st_shape tau) -> 0 <= st_dtype tau ->
  broadcast_tensor_structure st snd rcv v = Ok (Some tau).
Proof.
  intros Hr Hv HM (m0 & Hm0 & Hs0) HS Hn Hd. unfold broadcast_tensor_structure. rewrite Hr.
  destruct (same_comm (snd v) (Some g)) eqn:E.
  { apply same_comm_spec in E as (h & E1 & E2). inv E2. now rewrite HS. }
  assert (HC : forall A (own : tstruct -> A) (init : A) m, In m g ->
    st_contrib st snd rcv g own init m = Some (if on_comm (snd m) g then own tau else init)).
  { intros A own init m Hm. unfold st_contrib. destruct (on_comm (snd m) g) eqn:Em.
    - apply on_comm_spec in Em. now rewrite HS.
    - destruct (HM m Hm) as [C|C]; apply on_comm_spec in C; [congruence|]. now rewrite C. }
  assert (H0 : on_comm (snd m0) g = true) by now apply on_comm_spec.
  assert (HMAX : forall (own : tstruct -> Z), -1 <= own tau ->
     iallreduce_max g (st_contrib st snd rcv g own (-1)) = Ok (own tau)).
  { intros own Ho.
    apply (iallreduce_max_ok g _ (fun m => if on_comm (snd m) g then own tau else -1)).
    - intros m Hm. now apply HC.
    - intros m Hm. destruct (on_comm (snd m) g); lia.
    - exists m0. now rewrite H0. }
  rewrite (HMAX st_dtype) by lia. cbn [rbind].
  rewrite (HMAX (fun s => if st_rg s then 1 else 0)) by (destruct (st_rg tau); lia). cbn [rbind].
  rewrite (HMAX (fun s => Z.of_nat (length (st_shape s)))) by lia. cbn [rbind].
  rewrite Nat2Z.id.
  rewrite (iallreduce_max_array_ok g _
    (fun m => if on_comm (snd m) g then st_shape tau else repeat (-1) (length (st_shape tau)))
    (st_shape tau)).
  - cbn [rbind]. destruct tau as [sh d []]; reflexivity.
  - intros m Hm. now apply HC.
  - intros m Hm. destruct (on_comm (snd m) g); [apply Forall2_le_refl|].
    clear - Hn. induction Hn; simpl; constructor; auto. lia.
  - exists m0. now rewrite H0.
Qed.

Section CrossStructure.
  Variables (S D : list Z) (rs ls : Z -> option (list Z)) (src : Z -> Z).
  Hypothesis W : cross_wf S D rs ls src.

  (** Receivers are the leaves, the root sends. *)
  Lemma bc_structure st d : In d D ->
    nonneg_shape (st_shape (st (src d))) -> 0 <= st_dtype (st (src d)) ->
    broadcast_tensor_structure st rs ls d = Ok (Some (st (src d))).
  Proof.
    intros Hd Hn Hdt. assert (Hs : In (src d) S) by now apply W.
    destruct (cw_root _ _ _ _ _ W _ Hs) as (g & E & HN & Hg).
    assert (L : ls d = Some (src d :: g)) by now rewrite (cw_leaf _ _ _ _ _ W d Hd).
    apply (structure_delivered st rs ls d (src d :: g)); auto.
    - destruct (Z.eq_dec (src d) d) as [->|N]; [now left|]. right. apply Hg. auto.
    - intros m Hm. destruct (cw_member _ _ _ _ _ W _ _ m Hs E Hm) as [H| ->]; auto.
      right. now apply (cw_leaf_on _ _ _ _ _ W _ _ m Hs E).
    - exists (src d). split; [now left|auto].
    - intros m Hm Em. apply (cw_root_on _ _ _ _ _ W _ _ m Hs E) in Em. now subst.
  Qed.

  (** Receivers are the roots, all leaves send. *)
  Lemma rd_structure st s tau : In s S -> (exists d, In d D /\ src d = s) ->
    (forall d, In d D -> src d = s -> st d = tau) ->
    nonneg_shape (st_shape tau) -> 0 <= st_dtype tau ->
    broadcast_tensor_structure st ls rs s = Ok (Some tau).
  Proof.
    intros Hs (d0 & Hd0 & Es0) Hst Hn Hdt.
    destruct (cw_root _ _ _ _ _ W _ Hs) as (g & E & HN & Hg).
    apply (structure_delivered st ls rs s (s :: g)); auto.
    - now left.
    - intros m Hm. destruct (cw_member _ _ _ _ _ W _ _ m Hs E Hm) as [H| ->]; auto.
      left. now apply (cw_leaf_on _ _ _ _ _ W _ _ m Hs E).
    - exists d0. split.
      + destruct (Z.eq_dec s d0) as [->|N]; [now left|]. right. apply Hg. auto.
      + now apply (cw_leaf_on _ _ _ _ _ W _ _ d0 Hs E).
    - intros m Hm Em. apply (cw_leaf_on _ _ _ _ _ W _ _ m Hs E) in Em as [I1 I2]. auto.
  Qed.
End CrossStructure.

(** Shapes alone need no agreement on element type or gradient flag. *)
Lemma iallreduce_max_total g contrib h : g <> [] -> (forall m, In m g -> contrib m = Some (h m)) ->
  exists t, iallreduce_max g contrib = Ok t.
Proof.
  intros Hne H. unfold iallreduce_max. rewrite (contributions_ok g _ h) by auto. cbn [rbind].
  destruct g; [congruence|]. simpl. eauto.
Qed.

Lemma structure_shape st snd rcv v g sh : rcv v = Some g -> In v g ->
  (forall m, In m g -> snd m = Some g \/ rcv m = Some g) ->
  (exists m, In m g /\ snd m = Some g) ->
  (forall m, In m g -> snd m = Some g -> st_shape (st m) = sh) ->
  nonneg_shape sh ->
  exists o, broadcast_tensor_structure st snd rcv v = Ok (Some o) /\ st_shape o = sh.
Proof.
  intros Hr Hv HM (m0 & Hm0 & Hs0) HS Hn. unfold broadcast_tensor_structure. rewrite Hr.
  destruct (same_comm (snd v) (Some g)) eqn:E.
  { apply same_comm_spec in E as (h & E1 & E2). inv E2. eauto. }
  assert (HC : forall A (own : tstruct -> A) (init : A) m, In m g ->
    st_contrib st snd rcv g own init m = Some (if on_comm (snd m) g then own (st m) else init)).
  { intros A own init m Hm. unfold st_contrib. destruct (on_comm (snd m) g) eqn:Em; auto.
    destruct (HM m Hm) as [C|C]; apply on_comm_spec in C; [congruence|]. now rewrite C. }
  assert (Hne : g <> []) by (intros ->; easy).
  destruct (iallreduce_max_total g _ _ Hne (HC Z st_dtype (-1))) as [d ->]. cbn [rbind].
  destruct (iallreduce_max_total g _ _ Hne (HC Z (fun s => if st_rg s then 1 else 0) (-1))) as [rg ->].
  cbn [rbind].
  assert (H0 : on_comm (snd m0) g = true) by now apply on_comm_spec.
  rewrite (iallreduce_max_ok g _ (fun m => if on_comm (snd m) g then Z.of_nat (length (st_shape (st m))) else -1)
             (Z.of_nat (length sh))).
  - cbn [rbind]. rewrite Nat2Z.id.
    rewrite (iallreduce_max_array_ok g _
      (fun m => if on_comm (snd m) g then st_shape (st m) else repeat (-1) (length sh)) sh).
    + cbn [rbind]. eexists. split; [reflexivity|]. reflexivity.
    + intros m Hm. now apply HC.
    + intros m Hm. destruct (on_comm (snd m) g) eqn:Em.
      * apply on_comm_spec in Em. rewrite HS by auto. apply Forall2_le_refl.
      * clear - Hn. induction Hn; simpl; constructor; auto. lia.
    + exists m0. rewrite H0. auto.
  - intros m Hm. now apply HC.
  - intros m Hm. destruct (on_comm (snd m) g) eqn:Em; [|lia].
    apply on_comm_spec in Em. rewrite HS by auto. lia.
  - exists m0. rewrite H0. split; auto. now rewrite HS.
Qed.

Section CrossShapes.
  Variables (S D : list Z) (rs ls : Z -> option (list Z)) (src : Z -> Z).
  Hypothesis W : cross_wf S D rs ls src.

  Lemma bc_shape st d : In d D -> nonneg_shape (st_shape (st (src d))) ->
    exists o, broadcast_tensor_structure st rs ls d = Ok (Some o) /\ st_shape o = st_shape (st (src d)).
  Proof.
    intros Hd Hn. assert (Hs : In (src d) S) by now apply W.
    destruct (cw_root _ _ _ _ _ W _ Hs) as (g & E & HN & Hg).
    assert (L : ls d = Some (src d :: g)) by now rewrite (cw_leaf _ _ _ _ _ W d Hd).
    apply (structure_shape st rs ls d (src d :: g)); auto.
    - destruct (Z.eq_dec (src d) d) as [->|N]; [now left|]. right. apply Hg. auto.
    - intros m Hm. destruct (cw_member _ _ _ _ _ W _ _ m Hs E Hm) as [H| ->]; auto.
      right. now apply (cw_leaf_on _ _ _ _ _ W _ _ m Hs E).
    - exists (src d). split; [now left|auto].
    - intros m Hm Em. apply (cw_root_on _ _ _ _ _ W _ _ m Hs E) in Em. now subst.
  Qed.

  Lemma rd_shape st s sh : In s S -> (exists d, In d D /\ src d = s) ->
    (forall d, In d D -> src d = s -> st_shape (st d) = sh) -> nonneg_shape sh ->
    exists o, broadcast_tensor_structure st ls rs s = Ok (Some o) /\ st_shape o = sh.
  Proof.
    intros Hs (d0 & Hd0 & Es0) Hst Hn.
    destruct (cw_root _ _ _ _ _ W _ Hs) as (g & E & HN & Hg).
    apply (structure_shape st ls rs s (s :: g)); auto.
    - now left.
    - intros m Hm. destruct (cw_member _ _ _ _ _ W _ _ m Hs E Hm) as [H| ->]; auto.
      left. now apply (cw_leaf_on _ _ _ _ _ W _ _ m Hs E).
    - exists d0. split.
      + destruct (Z.eq_dec s d0) as [->|N]; [now left|]. right. apply Hg. auto.
      + now apply (cw_leaf_on _ _ _ _ _ W _ _ d0 Hs E).
    - intros m Hm Em. apply (cw_leaf_on _ _ _ _ _ W _ _ m Hs E) in Em as [I1 I2]. auto.
  Qed.

  Lemma cw_same_root s : In s S -> same_comm (rs s) (ls s) = true -> In s D /\ src s = s.
  Proof.
    intros Hs H. apply same_comm_spec in H as (g & E1 & E2).
    now apply (cw_leaf_on _ _ _ _ _ W s g s Hs E1).
  Qed.

  Lemma same_comm_sym a b : same_comm a b = same_comm b a.
  Proof.
    destruct (same_comm a b) eqn:E.
    - apply same_comm_spec in E as (g & -> & ->). symmetry. apply same_comm_spec. eauto.
    - symmetry. destruct (same_comm b a) eqn:E'; auto.
      apply same_comm_spec in E' as (g & -> & ->). simpl in E. now rewrite zlist_eqb_refl in E.
  Qed.

  Context {R : CRing}.

  Lemma zero_volume_ok pb sh : (pb = true -> sh <> []) ->
    exists t : tensor R, zero_volume pb sh = Ok t /\ tshape t = if pb then [hd 0 sh; 0] else [0].
  Proof.
    intros H. unfold zero_volume. destruct pb.
    - destruct sh; [now destruct (H eq_refl)|]. eexists. split; reflexivity.
    - eexists. split; reflexivity.
  Qed.

  (** The four functions on well-formed groups. *)
  Lemma broadcast_forward_leaf pb out (x : Z -> tensor R) d : In d D ->
    (pb = true -> tshape (x d) <> []) -> out d = tshape (x (src d)) ->
    broadcast_forward rs ls pb out x d = Ok (x (src d)).
  Proof.
    intros Hd Hz Ho. unfold broadcast_forward.
    destruct (zero_volume_ok pb _ Hz) as (z & -> & _). cbn [rbind].
    destruct (same_comm (rs d) (ls d)) eqn:E.
    - rewrite (cw_same _ _ _ _ _ W d Hd E). now destruct (ls d) eqn:L; [|now destruct (rs d)].
    - pose proof (cross_bcast _ _ _ _ _ W x (out d) d Hd E Ho) as H.
      destruct (ls d); [|discriminate]. exact H.
  Qed.

  Lemma sum_reduce_backward_leaf pb ins (dy : Z -> tensor R) d : In d D ->
    (pb = true -> tshape (dy d) <> []) -> ins d = tshape (dy (src d)) ->
    sum_reduce_backward ls rs pb ins dy d = Ok (dy (src d)).
  Proof.
    intros Hd Hz Ho. unfold sum_reduce_backward.
    destruct (zero_volume_ok pb _ Hz) as (z & -> & _). cbn [rbind]. rewrite same_comm_sym.
    destruct (same_comm (rs d) (ls d)) eqn:E.
    - rewrite (cw_same _ _ _ _ _ W d Hd E). now destruct (ls d) eqn:L; [|now destruct (rs d)].
    - pose proof (cross_bcast _ _ _ _ _ W dy (ins d) d Hd E Ho) as H.
      destruct (ls d); [|discriminate]. exact H.
  Qed.

  Lemma broadcast_forward_none pb out (x : Z -> tensor R) v : ~ In v D ->
    broadcast_forward rs ls pb out x v = zero_volume pb (tshape (x v)).
  Proof.
    intros Hv. unfold broadcast_forward. rewrite (cw_leaf_none _ _ _ _ _ W v Hv).
    now destruct (zero_volume pb (tshape (x v))).
  Qed.

  Lemma sum_reduce_backward_none pb ins (dy : Z -> tensor R) v : ~ In v D ->
    sum_reduce_backward ls rs pb ins dy v = zero_volume pb (tshape (dy v)).
  Proof.
    intros Hv. unfold sum_reduce_backward. rewrite (cw_leaf_none _ _ _ _ _ W v Hv).
    now destruct (zero_volume pb (tshape (dy v))).
  Qed.

  Lemma broadcast_backward_root pb ins out (dy : Z -> tensor R) s sh : In s S ->
    (pb = true -> tshape (dy s) <> []) ->
    (forall d, In d D -> src d = s -> tshape (dy d) = sh) ->
    ins s = sh -> (In s D -> src s = s -> out s = sh) ->
    exists t, broadcast_backward rs ls pb ins out dy s = Ok t /\ tshape t = sh /\
      forall i, tat t i = leaf_sum D src dy s i.
  Proof.
    intros Hs Hz Hy Hi Ho. unfold broadcast_backward.
    destruct (zero_volume_ok pb _ Hz) as (z & -> & _). cbn [rbind].
    destruct (cw_root _ _ _ _ _ W s Hs) as (g & E & _).
    assert (Hbuf : (if same_comm (rs s) (ls s) then out s else ins s) = sh).
    { destruct (same_comm (rs s) (ls s)) eqn:Es; auto.
      destruct (cw_same_root s Hs Es). auto. }
    rewrite Hbuf, E.
    destruct (cross_reduce _ _ _ _ _ W dy ins s (s :: g) sh Hs E Hy Hi) as (t & -> & T1 & T2).
    cbn [rbind hd]. rewrite Z.eqb_refl. eauto.
  Qed.

  Lemma sum_reduce_forward_root pb ins out (x : Z -> tensor R) s sh : In s S ->
    (pb = true -> tshape (x s) <> []) ->
    (forall d, In d D -> src d = s -> tshape (x d) = sh) ->
    out s = sh -> (In s D -> src s = s -> ins s = sh) ->
    exists t, sum_reduce_forward ls rs pb ins out x s = Ok t /\ tshape t = sh /\
      forall i, tat t i = leaf_sum D src x s i.
  Proof.
    intros Hs Hz Hy Hi Ho. unfold sum_reduce_forward.
    destruct (zero_volume_ok pb _ Hz) as (z & -> & _). cbn [rbind].
    destruct (cw_root _ _ _ _ _ W s Hs) as (g & E & _).
    assert (Hbuf : (if same_comm (ls s) (rs s) then ins s else out s) = sh).
    { rewrite same_comm_sym. destruct (same_comm (rs s) (ls s)) eqn:Es; auto.
      destruct (cw_same_root s Hs Es). auto. }
    rewrite Hbuf, E.
    destruct (cross_reduce _ _ _ _ _ W x out s (s :: g) sh Hs E Hy Hi) as (t & -> & T1 & T2).
    cbn [rbind hd]. rewrite Z.eqb_refl. eauto.
  Qed.

  Lemma broadcast_backward_none pb ins out (dy : Z -> tensor R) v : ~ In v S ->
    broadcast_backward rs ls pb ins out dy v = zero_volume pb (tshape (dy v)).
  Proof.
    intros Hv. unfold broadcast_backward. rewrite (cw_root_none _ _ _ _ _ W v Hv).
    now destruct (zero_volume pb (tshape (dy v))).
  Qed.

  Lemma sum_reduce_forward_none pb ins out (x : Z -> tensor R) v : ~ In v S ->
    sum_reduce_forward ls rs pb ins out x v = zero_volume pb (tshape (x v)).
  Proof.
    intros Hv. unfold sum_reduce_forward. rewrite (cw_root_none _ _ _ _ _ W v Hv).
    now destruct (zero_volume pb (tshape (x v))).
  Qed.
End CrossShapes.

(** The identity case. *)
Lemma csrc_self P t d : part_ok P -> In d (p_ranks P) -> csrc P P t t d = d.
Proof.
  intros HP Hd.
  assert (HC : bc_compatible (flip t (p_shape P)) (flip t (p_shape P))).
  { split; auto. unfold trailing. rewrite Nat.sub_diag. cbn [skipn].
    generalize (flip t (p_shape P)). intros l. induction l; constructor; auto. }
  apply csrc_unique; auto. unfold scol, dcol. rewrite Nat.sub_diag. cbn [repeat app]. reflexivity.
Qed.

Lemma identity_csrc same P ts td d : part_ok P -> is_identity same P ts td d = true ->
  bc_compatible (flip ts (p_shape P)) (flip td (p_shape P)) ->
  (forall d', In d' (p_ranks P) -> csrc P P ts td d' = d') /\ In d (p_ranks P) /\ same = true.
Proof.
  intros HP H HC. unfold is_identity in H. apply andb_true_iff in H as [H H3].
  apply andb_true_iff in H as [H1 H2]. apply is_active_spec in H2. split; auto.
  intros d' Hd'. apply orb_true_iff in H3 as [H3|H3].
  - apply Z.eqb_eq in H3. destruct (csrc_spec P P ts td HP HP HC d' Hd') as [I _].
    destruct (p_ranks P) as [|a [|b l]]; simpl in H3; try lia.
    destruct I as [I|[]], Hd' as [J|[]]. congruence.
  - assert (ts = td) as -> by (destruct ts, td; auto; discriminate). now apply csrc_self.
Qed.

Lemma identity_uniform same P ts td d d' : In d' (p_ranks P) -> is_identity same P ts td d = true ->
  is_identity same P ts td d' = true.
Proof.
  unfold is_identity. intros Hd' H. apply andb_true_iff in H as [H H3].
  apply andb_true_iff in H as [H1 H2]. apply is_active_spec in Hd'. now rewrite H1, H3, Hd'.
Qed.
