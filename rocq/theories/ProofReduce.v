(** Lemmas about reductions in machine arithmetic. *)

From Coq Require Import Sorting.Permutation.
From Verif Require Import Prelude SpecIndex SpecPartition ModelSlicing ModelPartition ProofSlicing ProofPartition PropPartition Ring Tensor
  ModelCollectives ProofCollectives PropCollectives ModelLinear ProofWork ModelWorkGrad ProofWorkGrad ModelReduce SpecSum.

Section Evaluates.
  Context {R : CRing}.
  Add Ring R_ring : (rth R).
  Variable M : machine R.

  (** Terms that are themselves results of sums. *)
  Lemma evaluates_concat (ps : list (list (term R) * R)) r :
    (forall p, In p ps -> evaluates M (fst p) (snd p)) -> evaluates M (map Num (map snd ps)) r -> evaluates M (concat (map fst ps)) r.
  Proof.
    intros Hp H. remember (map Num (map snd ps)) as l eqn:E. revert ps Hp E.
    induction H as [|a|a b|l1 l2 a b H1 IH1 H2 IH2|a b l c H IH|l l' a Hl H IH]; intros ps Hp E.
    - destruct ps; [|discriminate]. constructor.
    - destruct ps as [|p [|]]; try discriminate. cbn in E. injection E as ->. cbn [map concat fst]. rewrite app_nil_r. apply Hp. now left.
    - destruct ps; discriminate.
    - symmetry in E. apply map_eq_app in E as (m1 & m2 & E & <- & <-). apply map_eq_app in E as (p1 & p2 & -> & <- & <-).
      rewrite map_app, concat_app. apply ev_add.
      + apply IH1; auto. intros p Hin. apply Hp. apply in_or_app. now left.
      + apply IH2; auto. intros p Hin. apply Hp. apply in_or_app. now right.
    - destruct ps; discriminate.
    - subst l'. rewrite map_map in Hl. apply Permutation_map_inv in Hl as (ps' & -> & Hps).
      apply ev_order with (concat (map fst ps')).
      + rewrite <- !flat_map_concat_map. apply Permutation_flat_map. now apply Permutation_sym.
      + apply IH; [|now rewrite map_map]. intros p Hin. apply Hp. apply (Permutation_in _ (Permutation_sym Hps) Hin).
  Qed.

  (** A machine that computes in the ring has only the sum. *)
  Lemma evaluates_exact l r : evaluates (exact_machine R) l r -> r = sumf l exact_term.
  Proof.
    induction 1 as [|a|a b|l1 l2 a b H1 IH1 H2 IH2|a b l c H IH|l l' a Hl H IH]; rewrite ?sumf_cons, ?sumf_nil, ?sumf_app; cbn [exact_machine m_add m_mul m_fma exact_term].
    - reflexivity.
    - ring.
    - ring.
    - congruence.
    - rewrite IH. reflexivity.
    - rewrite IH. now apply sumf_perm.
  Qed.

  Lemma exact_evaluates l : evaluates (exact_machine R) l (sumf l exact_term).
  Proof.
    induction l as [|t l IH]; [constructor|]. rewrite sumf_cons. change (t :: l) with ([t] ++ l).
    apply (ev_add (exact_machine R)); auto. destruct t; [apply ev_num|apply (ev_prod (exact_machine R))].
  Qed.
End Evaluates.

Lemma flat_map_filter {A B} (p : A -> bool) (f : A -> B) l : flat_map (fun m => if p m then [f m] else []) l = map f (filter p l).
Proof. induction l as [|a l IH]; [reflexivity|]. cbn. destruct (p a); cbn; now rewrite IH. Qed.

(** Terms of the workers in a list. *)
Definition nums {R : CRing} (y : Z -> tensor R) (i : list Z) (us : list Z) : list (term R) := map (fun u => Num (tat (y u) i)) us.

Section Cross.
  Context {R : CRing}.
  Variables (M : machine R) (red : Z -> list Z -> list R -> list Z -> R).
  Hypothesis HR : adds M red.
  Variables (S D : list Z) (rs ls : Z -> option (list Z)) (src : Z -> Z).
  Hypothesis W : cross_wf S D rs ls src.

  (** See [cross_reduce]. *)
  Lemma cross_reduce_by (y : Z -> tensor R) zs s g buf v : In s S -> rs s = Some g ->
    (forall d, In d D -> src d = s -> tshape (y d) = buf) -> zs s = buf ->
    exists t, ireduce_by red v g (fun m => if on_comm (ls m) g then Some (y m)
                        else if on_comm (rs m) g then Some (tzeros (zs m)) else None) buf = Ok t /\
      tshape t = buf /\ forall i, evaluates M (nums y i (filter (fun d => src d =? s) D)) (tat t i).
  Proof.
    intros Hs Hg Hy Hz.
    set (h := fun m => if on_comm (ls m) g then y m else tzeros (zs m)).
    unfold ireduce_by. rewrite (contributions_ok g _ h).
    2:{ intros m Hm. unfold h. destruct (on_comm (ls m) g) eqn:E; auto.
        destruct (cw_member _ _ _ _ _ W s g m Hs Hg Hm) as [H| ->].
        - apply (cw_leaf_on _ _ _ _ _ W s g m Hs Hg) in H. apply on_comm_spec in H. congruence.
        - now rewrite (proj2 (on_comm_spec _ _) Hg). }
    cbn [rbind]. replace (forallb _ (map h g)) with true.
    2:{ symmetry. apply forallb_forall. intros t Ht. apply in_map_iff in Ht as (m & <- & Hm).
        apply zlist_eqb_eq. unfold h. destruct (on_comm (ls m) g) eqn:E.
        - apply on_comm_spec, (cw_leaf_on _ _ _ _ _ W s g m Hs Hg) in E as [E1 E2]. now apply Hy.
        - destruct (cw_member _ _ _ _ _ W s g m Hs Hg Hm) as [H| ->]; auto.
          apply (cw_leaf_on _ _ _ _ _ W s g m Hs Hg) in H. apply on_comm_spec in H. congruence. }
    eexists. split; [reflexivity|]. cbn [tshape tat]. split; auto. intros i.
    destruct (cw_root _ _ _ _ _ W s Hs) as (g1 & E1 & HN & Hmem). rewrite Hg in E1. injection E1 as ->.
    set (g := s :: g1) in *.
    set (ps := map (fun m => (if on_comm (ls m) g then [Num (tat (y m) i)] else [], tat (h m) i)) g).
    apply ev_order with (concat (map fst ps)).
    - unfold ps. rewrite map_map. cbn [fst]. rewrite <- flat_map_concat_map, flat_map_filter. unfold nums. apply Permutation_map, NoDup_Permutation.
      + now apply NoDup_filter.
      + apply NoDup_filter, W.
      + intros d. rewrite !filter_In, on_comm_spec, (cw_leaf_on _ _ _ _ _ W s g d Hs Hg), Z.eqb_eq.
        split; [tauto|]. intros [H1 H2]. split; auto.
        destruct (Z.eq_dec d (src d)) as [E|E]; [left; congruence|right]. apply Hmem. repeat split; auto. congruence.
    - apply evaluates_concat.
      + intros p Hp. apply in_map_iff in Hp as (m & <- & _). cbn [fst snd]. unfold h. destruct (on_comm (ls m) g); constructor.
      + replace (map snd ps) with (map (fun t => tat t i) (map h g)); [apply HR; discriminate|]. unfold ps. rewrite !map_map. reflexivity.
  Qed.

  Lemma broadcast_backward_root_by pb ins out (dy : Z -> tensor R) s sh : In s S ->
    (pb = true -> tshape (dy s) <> []) ->
    (forall d, In d D -> src d = s -> tshape (dy d) = sh) ->
    ins s = sh -> (In s D -> src s = s -> out s = sh) ->
    exists t, broadcast_backward_by red rs ls pb ins out dy s = Ok t /\ tshape t = sh /\
      forall i, evaluates M (nums dy i (filter (fun d => src d =? s) D)) (tat t i).
  Proof.
    intros Hs Hz Hy Hi Ho. unfold broadcast_backward_by.
    destruct (zero_volume_ok (R := R) pb _ Hz) as (z & -> & _). cbn [rbind].
    destruct (cw_root _ _ _ _ _ W s Hs) as (g & E & _).
    assert (Hbuf : (if same_comm (rs s) (ls s) then out s else ins s) = sh).
    { destruct (same_comm (rs s) (ls s)) eqn:Es; auto.
      destruct (cw_same_root _ _ _ _ _ W s Hs Es). auto. }
    rewrite Hbuf, E.
    destruct (cross_reduce_by dy ins s (s :: g) sh s Hs E Hy Hi) as (t & -> & T1 & T2).
    cbn [rbind hd]. rewrite Z.eqb_refl. eauto.
  Qed.

  Lemma sum_reduce_forward_root_by pb ins out (x : Z -> tensor R) s sh : In s S ->
    (pb = true -> tshape (x s) <> []) ->
    (forall d, In d D -> src d = s -> tshape (x d) = sh) ->
    out s = sh -> (In s D -> src s = s -> ins s = sh) ->
    exists t, sum_reduce_forward_by red ls rs pb ins out x s = Ok t /\ tshape t = sh /\
      forall i, evaluates M (nums x i (filter (fun d => src d =? s) D)) (tat t i).
  Proof.
    intros Hs Hz Hy Hi Ho. unfold sum_reduce_forward_by.
    destruct (zero_volume_ok (R := R) pb _ Hz) as (z & -> & _). cbn [rbind].
    destruct (cw_root _ _ _ _ _ W s Hs) as (g & E & _).
    assert (Hbuf : (if same_comm (ls s) (rs s) then ins s else out s) = sh).
    { rewrite same_comm_sym. destruct (same_comm (rs s) (ls s)) eqn:Es; auto.
      destruct (cw_same_root _ _ _ _ _ W s Hs Es). auto. }
    rewrite Hbuf, E.
    destruct (cross_reduce_by x out s (s :: g) sh s Hs E Hy Hi) as (t & -> & T1 & T2).
    cbn [rbind hd]. rewrite Z.eqb_refl. eauto.
  Qed.

  Lemma broadcast_backward_none_by pb ins out (dy : Z -> tensor R) v : ~ In v S ->
    broadcast_backward_by red rs ls pb ins out dy v = zero_volume pb (tshape (dy v)).
  Proof.
    intros Hv. unfold broadcast_backward_by. rewrite (cw_root_none _ _ _ _ _ W v Hv).
    now destruct (zero_volume pb (tshape (dy v))).
  Qed.

  Lemma sum_reduce_forward_none_by pb ins out (x : Z -> tensor R) v : ~ In v S ->
    sum_reduce_forward_by red ls rs pb ins out x v = zero_volume pb (tshape (x v)).
  Proof.
    intros Hv. unfold sum_reduce_forward_by. rewrite (cw_root_none _ _ _ _ _ W v Hv).
    now destruct (zero_volume pb (tshape (x v))).
  Qed.
End Cross.

(** A worker's own value. *)
Lemma evaluates_self {R : CRing} (M : machine R) P src (y : Z -> tensor R) s i :
  NoDup (p_ranks P) -> In s (p_ranks P) -> (forall d, In d (p_ranks P) -> src d = d) ->
  evaluates M (nums y i (filter (fun d => src d =? s) (p_ranks P))) (tat (y s) i).
Proof.
  intros HN Hs Hid. apply ev_order with (nums y i [s]); [|apply ev_num]. unfold nums. apply Permutation_map, NoDup_Permutation.
  - constructor; [auto|constructor].
  - now apply NoDup_filter.
  - intros d. rewrite filter_In, Z.eqb_eq. split.
    + intros [<-|[]]. auto.
    + intros [H1 H2]. rewrite Hid in H2 by auto. now left.
Qed.

Section Layers.
  Context {R : CRing}.
  Variables (M : machine R) (red : Z -> list Z -> list R -> list Z -> R).
  Hypothesis HM : adds M red.

  Lemma sum_reduce_dest_by Px Py same ts td pb dt rg (x : Z -> tensor R) d :
    rd_accepted Px Py ts td same -> shapes_ok Px Py pb x ->
    (forall s s', In s (p_ranks Px) -> In s' (p_ranks Px) ->
       csrc Py Px td ts s = csrc Py Px td ts s' -> tshape (x s) = tshape (x s')) ->
    In d (p_ranks Py) ->
    exists t, sum_reduce_layer_by red Px Py same ts td pb dt rg x d = Ok t /\
      (forall s, In s (p_ranks Px) -> csrc Py Px td ts s = d -> tshape t = tshape (x s)) /\
      forall i, evaluates M (nums x i (filter (fun s => csrc Py Px td ts s =? d) (p_ranks Px))) (tat t i).
  Proof.
    intros (H1 & H2 & HR & HC & HS) HX Heq Hd. unfold sum_reduce_layer_by, layer_forward.
    destruct (is_identity same Px ts td d) eqn:I.
    { pose proof (identity_same _ _ _ _ _ I) as E. specialize (HS E). subst Py.
      rewrite identity_flags in I.
      destruct (identity_csrc same Px td ts d H1 I HC) as (Hid & _).
      exists (x d). split; auto. split.
      - intros s Hs <-. now rewrite Hid.
      - intros i. apply evaluates_self; auto. apply H1. }
    rewrite active_or by auto.
    pose proof (reduction_cross_wf Py Px td ts H2 H1 (eq_sym HR) HC) as W.
    destruct (runs_ok_rd Py Px td ts H2 H1 (eq_sym HR) HC d) as [c ->]. cbn [rbind].
    destruct (csrc_surj Py Px td ts H2 H1 HC d Hd) as (s0 & Hs0 & E0).
    assert (Hsh : forall s, In s (p_ranks Px) -> csrc Py Px td ts s = d -> tshape (x s) = tshape (x s0))
      by (intros s Hs Es; apply Heq; congruence).
    destruct (rd_shape _ _ _ _ _ W (structs_of dt rg x) d (tshape (x s0)) Hd) as (o & Ho & So).
    { exists s0. auto. }
    { intros s Hs Es. now apply Hsh. }
    { apply HX. auto. }
    rewrite Ho. cbn [rbind].
    destruct (sum_reduce_forward_root_by M red HM _ _ _ _ _ W pb (fun u => tshape (x u))
        (out_structs (create_reduction_partition_to Px Py ts td) (structs_of dt rg x)) x d (tshape (x s0)))
        as (t & Et & T1 & T2); auto.
    - intros E. apply HX; auto.
    - unfold out_structs. rewrite Ho. exact So.
    - exists t. split; auto. split; auto. intros s Hs Es. rewrite T1. symmetry. auto.
  Qed.

  Lemma sum_reduce_other_by Px Py same ts td pb dt rg (x : Z -> tensor R) v :
    rd_accepted Px Py ts td same -> shapes_ok Px Py pb x ->
    In v (p_ranks Px) -> ~ In v (p_ranks Py) ->
    zero_vol pb (batch_of (x v)) (sum_reduce_layer_by red Px Py same ts td pb dt rg x v).
  Proof.
    intros (H1 & H2 & HR & HC & HS) HX Hv Hn. unfold sum_reduce_layer_by, layer_forward.
    destruct (is_identity same Px ts td v) eqn:I.
    { pose proof (identity_same _ _ _ _ _ I) as E. specialize (HS E). subst Py. contradiction. }
    rewrite active_or by auto.
    pose proof (reduction_cross_wf Py Px td ts H2 H1 (eq_sym HR) HC) as W.
    destruct (runs_ok_rd Py Px td ts H2 H1 (eq_sym HR) HC v) as [c ->]. cbn [rbind].
    rewrite structure_not_receiving by now apply (cw_root_none _ _ _ _ _ W). cbn [rbind].
    rewrite (sum_reduce_forward_none_by red _ _ _ _ _ W) by auto.
    apply zero_volume_ok. now apply HX; auto.
  Qed.

  Lemma broadcast_source_by Px Py same ts td pb dt rg (x dy : Z -> tensor R) s :
    bc_accepted Px Py ts td same -> shapes_ok Px Py pb x -> shapes_ok Px Py pb dy ->
    (forall d, In d (p_ranks Py) -> tshape (dy d) = tshape (x (csrc Px Py ts td d))) -> In s (p_ranks Px) ->
    exists t, broadcast_layer_backward_by red Px Py same ts td pb dt rg x dy s = Ok t /\ tshape t = tshape (x s) /\
      forall i, evaluates M (nums dy i (filter (fun d => csrc Px Py ts td d =? s) (p_ranks Py))) (tat t i).
  Proof.
    intros (H1 & H2 & HR & HC & HS) HX HDY Hdy Hs. unfold broadcast_layer_backward_by, layer_backward.
    pose proof (broadcast_cross_wf Px Py ts td H1 H2 HR HC) as W.
    destruct (is_identity same Px ts td s) eqn:I.
    { pose proof (identity_same _ _ _ _ _ I) as E. pose proof (HS E). subst Py.
      destruct (identity_csrc same Px ts td s H1 I HC) as (Hid & _).
      eexists. split; [reflexivity|]. split; [rewrite Hdy, Hid; auto|].
      intros i. apply evaluates_self; auto. apply H1. }
    rewrite active_or by auto. destruct (runs_ok Px Py ts td H1 H2 HR HC s) as [c ->]. cbn [rbind].
    apply (broadcast_backward_root_by M red HM _ _ _ _ _ W pb (fun u => tshape (x u))
      (out_structs (create_broadcast_partition_to Px Py ts td) (structs_of dt rg x)) dy s (tshape (x s))); auto.
    - intros E. now apply HDY; auto.
    - intros d Hd <-. auto.
    - intros Hd Es. unfold out_structs.
      destruct (bc_shape _ _ _ _ _ W (structs_of dt rg x) s Hd) as (o & -> & So).
      { rewrite Es. apply HX. auto. }
      cbn [shape_of_struct]. rewrite So, Es. reflexivity.
  Qed.

  Lemma all_sum_value_by P ar ak (x z : Z -> tensor R) v :
    part_ok P -> axes_given (length (p_shape P)) ar ak ->
    (forall u w, reduced_with P ar ak u w -> tshape (x u) = tshape (x w)) ->
    (forall w, In w (p_ranks P) -> tshape (z w) = tshape (x w)) ->
    In v (p_ranks P) ->
    exists t, all_sum_reduce_layer_by red P ar ak x z v = Ok t /\ tshape t = tshape (x v) /\
      (forall i, evaluates M (nums z i (ar_list P ar ak v)) (tat t i)) /\
      (length (p_ranks P) <> 1%nat -> forall i, tat t i = red v (ar_list P ar ak v) (map (fun u => tat (z u) i) (ar_list P ar ak v)) i).
  Proof.
    intros HP Hax Hx Hz Hv. destruct (axes_resolved _ _ _ Hax) as (axes & EA & HF & HK).
    destruct (ar_list_spec P ar ak HP Hax v Hv) as (HN & HMm & HE).
    unfold all_sum_reduce_layer_by. rewrite EA. cbn [rbind].
    pose proof Hv as Ha. apply is_active_spec in Ha. rewrite Ha. cbn [negb].
    destruct (Z.eqb_spec (Z.of_nat (length (p_ranks P))) 1) as [E1|E1].
    { exists (z v). split; auto. split; auto. split; [|lia]. intros i. apply ev_order with (nums z i [v]); [|apply ev_num].
      unfold nums. apply Permutation_map, NoDup_Permutation; auto; [constructor; [auto|constructor]|].
      intros u. rewrite HMm. split.
      - intros [<-|[]]. now apply reduced_with_refl.
      - intros (a & b & _ & Hb & _). apply worker_at_In in Hb.
        destruct (p_ranks P) as [|w [|w' l]]; simpl in E1; try lia. destruct Hb as [Hb|[]], Hv as [Hv|[]]. left. congruence. }
    destruct (worker_at_exists P v HP Hv) as [i Hi].
    rewrite (allreduction_run P axes i v) by auto. cbn [rbind].
    unfold all_sum_reduce_forward_by.
    assert (HG : forall u, In u (p_ranks P) -> allreduce_groups P axes u = Some (ar_list P ar ak u)).
    { intros u Hu. unfold ar_list. rewrite EA. unfold allreduce_groups.
      destruct (worker_at_exists P u HP Hu) as [j Hj].
      now rewrite (allreduction_run P axes j u) by auto. }
    rewrite HG by auto. unfold ireduce_by.
    rewrite (contributions_ok (ar_list P ar ak v) _ z).
    2:{ intros m Hm. assert (Hmv := Hm). apply HMm in Hm as (a & b & _ & Hb & _).
        apply worker_at_In in Hb. rewrite HG by auto. rewrite HE by auto.
        now rewrite (proj2 (on_comm_spec _ _) eq_refl). }
    cbn [rbind]. replace (forallb _ (map z (ar_list P ar ak v))) with true.
    2:{ symmetry. apply forallb_forall. intros t Ht. apply in_map_iff in Ht as (m & <- & Hm).
        apply zlist_eqb_eq. apply HMm in Hm. rewrite Hz.
        - symmetry. now apply Hx.
        - destruct Hm as (a & b & _ & Hb & _). now apply worker_at_In in Hb. }
    eexists. split; [reflexivity|]. split; auto. split; [|intros _ k; cbn [tat]; now rewrite map_map]. intros k. cbn [tat].
    pose proof (proj2 (HMm v) (reduced_with_refl P ar ak HP v Hv)) as Hin.
    rewrite map_map. unfold nums. rewrite <- (map_map (fun u => tat (z u) k) Num). apply HM.
    destruct (ar_list P ar ak v); [destruct Hin|discriminate].
  Qed.
End Layers.

(** Broadcast, local layer, reduction; [shp] are the shapes of the local layers'
    outputs, [G] is what is known of them. *)
Section Work.
  Context {R : CRing}.
  Variables (M : machine R) (red : Z -> list Z -> list R -> list Z -> R).
  Hypothesis HM : adds M red.
  Variables Px Pw Py : part.
  Variables same_xw same_wy ts : bool.
  Variables (dt dt' : Z -> Z) (rg rg' : Z -> bool).
  Variable local : Z -> tensor R -> result (tensor R).
  Variable x : Z -> tensor R.
  Variable shp : Z -> list Z.
  Variable G : Z -> tensor R -> Prop.

  Hypothesis HA : bc_accepted Px Pw false false same_xw.
  Hypothesis HD : rd_accepted Pw Py ts false same_wy.
  Hypothesis HF : bc_flags Py ts false.
  Hypothesis HX : forall v, In v (p_ranks Px) \/ In v (p_ranks Pw) \/ In v (p_ranks Py) ->
    nonneg_shape (tshape (x v)) /\ tshape (x v) <> [].
  Hypothesis HL : forall s u t, paired Px Pw false false s u -> teq t (x s) ->
    exists t', local u t = Ok t' /\ tshape t' = shp u /\ G u t'.
  Hypothesis HO : forall u, In u (p_ranks Pw) -> nonneg_shape (shp u) /\ shp u <> [].
  Hypothesis HS : forall d u u', paired Py Pw false ts d u -> paired Py Pw false ts d u' -> shp u = shp u'.

  Let contrib := work_contribution Px Pw same_xw dt rg local x.

  Lemma contrib_facts u : In u (p_ranks Pw) -> tshape (contrib u) = shp u /\ G u (contrib u).
  Proof.
    intros Hu. destruct (work_bc Px Pw Py same_xw dt dt' rg rg' x HA HX) as (A & _). destruct (A u Hu) as (s & t & Hs & E & T).
    destruct (HL s u t Hs T) as (t' & E' & S' & G'). unfold contrib, work_contribution, work_local. rewrite E. cbn [rbind].
    apply is_active_spec in Hu. rewrite Hu, E'. auto.
  Qed.

  Lemma local_contrib s u t : paired Px Pw false false s u -> broadcast_layer Px Pw same_xw false false true dt rg x u = Ok t -> teq t (x s) ->
    exists t', local u t = Ok t' /\ teq t' (contrib u).
  Proof.
    intros Hs E T. destruct (HL s u t Hs T) as (t' & E' & _). exists t'. split; auto.
    unfold contrib, work_contribution, work_local. rewrite E. cbn [rbind].
    pose proof (pw_in Pw Hs) as Hu. apply is_active_spec in Hu. rewrite Hu, E'. apply teq_refl.
  Qed.

  Lemma contrib_positive u : In u (p_ranks Pw) -> nonneg_shape (tshape (contrib u)) /\ tshape (contrib u) <> [].
  Proof. intros Hu. destruct (contrib_facts u Hu) as [-> _]. auto. Qed.
  Lemma contrib_alike d u u' : paired Py Pw false ts d u -> paired Py Pw false ts d u' -> tshape (contrib u) = tshape (contrib u').
  Proof. intros Hu Hu'. destruct (contrib_facts u (pw_in Pw Hu)) as [-> _], (contrib_facts u' (pw_in Pw Hu')) as [-> _]. eauto. Qed.

  Lemma work_sum_by :
    (forall d us, In d (p_ranks Py) -> contributors Py Pw ts d us ->
       exists t z, work_forward_by red Px Pw Py same_xw same_wy ts dt dt' rg rg' local x d = Ok t /\
         (forall u, In u us -> tshape t = shp u /\ tshape (z u) = shp u /\ G u (z u)) /\
         forall i, evaluates M (nums z i us) (tat t i)) /\
    (forall v, In v (p_ranks Px) \/ In v (p_ranks Pw) -> ~ In v (p_ranks Py) ->
       exists t n, work_forward_by red Px Pw Py same_xw same_wy ts dt dt' rg rg' local x v = Ok t /\ tshape t = [n; 0] /\ 0 <= n) /\
    (forall v, ~ In v (p_ranks Px) -> ~ In v (p_ranks Pw) -> ~ In v (p_ranks Py) ->
       work_forward_by red Px Pw Py same_xw same_wy ts dt dt' rg rg' local x v = Ok (x v)).
  Proof.
    assert (Hrun : forall v, In v (p_ranks Px) \/ In v (p_ranks Pw) \/ In v (p_ranks Py) ->
      work_forward_by red Px Pw Py same_xw same_wy ts dt dt' rg rg' local x v =
      sum_reduce_layer_by red Pw Py same_wy ts false true dt' rg' contrib v).
    { intros v Hv. unfold work_forward_by.
      replace (is_active (p_ranks Px) v || is_active (p_ranks Py) v || is_active (p_ranks Pw) v) with true.
      - cbn [negb]. destruct (work_any Px Pw Py same_xw dt dt' rg rg' local x contrib HA HX local_contrib v) as [t ->]. reflexivity.
      - symmetry. destruct Hv as [H|[H|H]]; apply is_active_spec in H; rewrite H; auto using orb_true_r.
        now rewrite orb_true_r. }
    pose proof (contrib_shapes Px Pw Py same_xw ts dt dt' rg rg' local x contrib HA HX local_contrib contrib_positive contrib_alike) as Sh. fold contrib in Sh.
    pose proof HD as (H1 & H2 & HR & HC & HSm).
    assert (Hp : forall s, In s (p_ranks Pw) -> forall d, paired Py Pw false ts d s <-> d = csrc Py Pw false ts s)
      by (intros s Hs d; apply csrc_paired; auto using amo_either).
    assert (Heq : forall s s', In s (p_ranks Pw) -> In s' (p_ranks Pw) -> csrc Py Pw false ts s = csrc Py Pw false ts s' -> tshape (contrib s) = tshape (contrib s')).
    { intros s s' Hs Hs' E. apply (contrib_alike (csrc Py Pw false ts s)); apply Hp; auto. }
    split; [|split].
    - intros d us Hd [Hn Hus]. rewrite Hrun by auto.
      destruct (sum_reduce_dest_by M red HM Pw Py same_wy ts false true dt' rg' contrib d HD Sh Heq Hd) as (t & E & T1 & T2).
      exists t, contrib. split; [exact E|]. split.
      + intros u Hu. apply Hus in Hu. pose proof (pw_in Pw Hu) as Hin. destruct (contrib_facts u Hin) as [S1 G1]. split; [|auto].
        rewrite <- S1. apply T1; auto. symmetry. now apply Hp.
      + intros i. eapply ev_order; [|apply T2]. unfold nums. apply Permutation_map, NoDup_Permutation; auto.
        * apply NoDup_filter. apply H1.
        * intros u. rewrite filter_In, Hus. split.
          -- intros [Hin Eq]. apply Z.eqb_eq in Eq. apply Hp; auto.
          -- intros Hu. pose proof (pw_in Pw Hu) as Hin. split; auto. apply Z.eqb_eq. symmetry. now apply Hp.
    - intros v Hv Hn. rewrite Hrun by tauto. destruct (in_dec Z.eq_dec v (p_ranks Pw)) as [Hw|Hw].
      + destruct (sum_reduce_other_by red Pw Py same_wy ts false true dt' rg' contrib v HD Sh Hw Hn) as (t & E & T). exists t, (batch_of (contrib v)).
        split; [exact E|]. split; [exact T|]. apply batch_nonneg. now apply contrib_positive.
      + destruct Hv as [Hx|Hv]; [|contradiction]. unfold sum_reduce_layer_by, layer_forward.
        assert (I : is_identity same_wy Pw ts false v = false).
        { destruct (is_identity same_wy Pw ts false v) eqn:I; auto. apply identity_active in I. contradiction. }
        rewrite I, inactive_or by auto.
        destruct (work_other Px Pw Py same_xw dt dt' rg rg' local x HA HX v Hx Hw) as (t & E & T).
        exists (contrib v), (batch_of (x v)). split; auto. split; [unfold contrib, work_contribution; now rewrite E|].
        apply batch_nonneg. now apply HX; left.
    - intros v Hx Hw Hy. unfold work_forward_by. apply is_active_false in Hx, Hw, Hy. now rewrite Hx, Hw, Hy.
  Qed.

  (** The backward pass. *)
  Variable local_back : Z -> tensor R -> tensor R -> result (tensor R).
  Variable dy : Z -> tensor R.
  Variable GB : Z -> tensor R -> Prop.
  Hypothesis HY : forall v, In v (p_ranks Px) \/ In v (p_ranks Pw) \/ In v (p_ranks Py) ->
    nonneg_shape (tshape (dy v)) /\ tshape (dy v) <> [].
  Hypothesis HG : forall d u, paired Py Pw false ts d u -> tshape (dy d) = shp u.
  Hypothesis HN : forall d, In d (p_ranks Py) -> exists u, paired Py Pw false ts d u.
  Hypothesis HB : forall s u d t g, paired Px Pw false false s u -> teq t (x s) -> paired Py Pw false ts d u -> teq g (dy d) ->
    exists t', local_back u t g = Ok t' /\ tshape t' = tshape (x s) /\ GB u t'.

  Lemma contrib_grad d u : paired Py Pw false ts d u -> tshape (dy d) = tshape (contrib u).
  Proof. intros Hp. destruct (contrib_facts u (pw_in Pw Hp)) as [-> _]. auto. Qed.

  Lemma work_layer_by (bk : Z -> tensor R -> tensor R -> result (tensor R)) u : In u (p_ranks Pw) ->
    exists s d t g, paired Px Pw false false s u /\ teq t (x s) /\ paired Py Pw false ts d u /\ teq g (dy d) /\
      work_layer_gradient Px Pw Py same_xw same_wy ts dt dt' rg rg' local x dy bk u = bk u t g.
  Proof.
    exact (work_layer Px Pw Py same_xw same_wy ts dt dt' rg rg' local x dy contrib HA HD HF HX local_contrib contrib_positive
             contrib_alike HY contrib_grad HN bk u).
  Qed.

  Let bcon := work_back_contribution Px Pw Py same_xw same_wy ts dt dt' rg rg' local local_back x dy.

  Lemma bcon_facts u : In u (p_ranks Pw) -> exists s, paired Px Pw false false s u /\ tshape (bcon u) = tshape (x s) /\ GB u (bcon u).
  Proof.
    intros Hu. destruct (work_layer_by local_back u Hu) as (s & d & t & g & H1 & H2 & H3 & H4 & E).
    destruct (HB s u d t g H1 H2 H3 H4) as (t' & E' & S' & G'). exists s. split; auto.
    unfold bcon, work_back_contribution, work_back_local. apply is_active_spec in Hu. rewrite Hu, E, E'. auto.
  Qed.

  Lemma source_unique s s' u : paired Px Pw false false s u -> paired Px Pw false false s' u -> s = s'.
  Proof.
    intros H H'. pose proof HA as (H1 & H2 & H3 & H4 & H5). pose proof (pw_in Pw H) as Hu.
    assert (Cp : forall s, paired Px Pw false false s u <-> s = csrc Px Pw false false u) by (intros; apply csrc_paired; auto).
    apply Cp in H, H'. congruence.
  Qed.

  Lemma back_contrib s u d t g : paired Px Pw false false s u -> teq t (x s) -> paired Py Pw false ts d u -> teq g (dy d) ->
    work_layer_gradient Px Pw Py same_xw same_wy ts dt dt' rg rg' local x dy local_back u = local_back u t g ->
    exists t', local_back u t g = Ok t' /\ teq t' (bcon u).
  Proof.
    intros H1 H2 H3 H4 E. destruct (HB s u d t g H1 H2 H3 H4) as (t' & E' & _). exists t'. split; auto.
    unfold bcon, work_back_contribution, work_back_local. pose proof (pw_in Pw H1) as Hu. apply is_active_spec in Hu. rewrite Hu, E, E'. apply teq_refl.
  Qed.
  Lemma back_contrib_shape s u : paired Px Pw false false s u -> tshape (bcon u) = tshape (x s).
  Proof. intros H. destruct (bcon_facts u (pw_in Pw H)) as (s' & H' & -> & _). now rewrite (source_unique s s' u H H'). Qed.

  Lemma work_back_sum_by :
    (forall s us, In s (p_ranks Px) -> receivers Px Pw s us ->
       exists t z, work_backward_by red Px Pw Py same_xw same_wy ts dt dt' rg rg' local local_back x dy s = Ok t /\ tshape t = tshape (x s) /\
         (forall u, In u us -> tshape (z u) = tshape (x s) /\ GB u (z u)) /\
         forall i, evaluates M (nums z i us) (tat t i)) /\
    (forall v, In v (p_ranks Pw) \/ In v (p_ranks Py) -> ~ In v (p_ranks Px) ->
       exists t n, work_backward_by red Px Pw Py same_xw same_wy ts dt dt' rg rg' local local_back x dy v = Ok t /\ tshape t = [n; 0]) /\
    (forall v, ~ In v (p_ranks Px) -> ~ In v (p_ranks Pw) -> ~ In v (p_ranks Py) ->
       work_backward_by red Px Pw Py same_xw same_wy ts dt dt' rg rg' local local_back x dy v = Ok (dy v)).
  Proof.
    assert (Hrun : forall v, In v (p_ranks Px) \/ In v (p_ranks Pw) \/ In v (p_ranks Py) ->
      work_backward_by red Px Pw Py same_xw same_wy ts dt dt' rg rg' local local_back x dy v =
      broadcast_layer_backward_by red Px Pw same_xw false false true dt rg x bcon v).
    { intros v Hv. unfold work_backward_by.
      replace (is_active (p_ranks Px) v || is_active (p_ranks Py) v || is_active (p_ranks Pw) v) with true.
      - cbn [negb]. destruct (bloc_any Px Pw Py same_xw same_wy ts dt dt' rg rg' local local_back x dy contrib bcon HA HD HF HX local_contrib contrib_positive
             contrib_alike HY contrib_grad HN back_contrib v) as [t ->]. reflexivity.
      - symmetry. destruct Hv as [H|[H|H]]; apply is_active_spec in H; rewrite H; auto using orb_true_r.
        now rewrite orb_true_r. }
    pose proof HA as (H1 & H2 & H3 & H4 & H5).
    assert (Hp : forall u, In u (p_ranks Pw) -> forall s, paired Px Pw false false s u <-> s = csrc Px Pw false false u) by (intros; apply csrc_paired; auto).
    assert (Sx : shapes_ok Px Pw true x) by (intros v Hv; destruct (HX v); tauto).
    assert (Sb : shapes_ok Px Pw true bcon).
    { intros v Hv. destruct (in_dec Z.eq_dec v (p_ranks Pw)) as [Hw|Hw].
      - destruct (bcon_facts v Hw) as (s & Hs & -> & _). destruct (HX s) as [N NE]; [|auto]. left.
        destruct Hs as (si & di & Hs & _). now apply worker_at_In in Hs.
      - destruct Hv as [Hv|Hv]; [|contradiction].
        destruct (bcon_other Px Pw Py same_xw same_wy ts dt dt' rg rg' local local_back x dy contrib bcon HA HD HF HX local_contrib contrib_positive
             contrib_alike HY contrib_grad HN back_contrib back_contrib_shape v Hw) as (N & NE & _); auto. }
    assert (Sd : forall d, In d (p_ranks Pw) -> tshape (bcon d) = tshape (x (csrc Px Pw false false d))).
    { intros d Hd. apply back_contrib_shape. now apply Hp. }
    split; [|split].
    - intros s us Hs [Hn Hus]. rewrite Hrun by auto.
      destruct (broadcast_source_by M red HM Px Pw same_xw false false true dt rg x bcon s HA Sx Sb Sd Hs) as (t & E & T1 & T2).
      exists t, bcon. split; [exact E|]. split; [exact T1|]. split.
      + intros u Hu. apply Hus in Hu. split; [now apply back_contrib_shape|]. now destruct (bcon_facts u (pw_in Pw Hu)) as (_ & _ & _ & K).
      + intros i. eapply ev_order; [|apply T2]. unfold nums. apply Permutation_map, NoDup_Permutation; auto.
        * apply NoDup_filter. apply H2.
        * intros u. rewrite filter_In, Hus. split.
          -- intros [Hin Eq]. apply Z.eqb_eq in Eq. apply Hp; auto.
          -- intros Hu. pose proof (pw_in Pw Hu) as Hin. split; auto. apply Z.eqb_eq. symmetry. now apply Hp.
    - intros v Hv Hn. rewrite Hrun by tauto. unfold broadcast_layer_backward_by, layer_backward.
      assert (I : is_identity same_xw Px false false v = false).
      { destruct (is_identity same_xw Px false false v) eqn:I; auto. apply identity_active in I. contradiction. }
      rewrite I. destruct (in_dec Z.eq_dec v (p_ranks Pw)) as [Hw|Hw].
      + rewrite active_or by auto. destruct (runs_ok Px Pw false false H1 H2 H3 H4 v) as [c ->]. cbn [rbind].
        pose proof (broadcast_cross_wf Px Pw false false H1 H2 H3 H4) as W.
        rewrite (broadcast_backward_none_by red _ _ _ _ _ W) by auto.
        destruct (zero_volume_ok (R := R) true (tshape (bcon v))) as (z & Ez & Sz); [intros _; now apply Sb; auto|]. eauto.
      + destruct Hv as [Hv|Hv]; [contradiction|]. rewrite inactive_or by auto.
        destruct (work_cot Px Pw Py same_xw same_wy ts dt dt' rg rg' local x dy contrib HA HD HF HX local_contrib contrib_positive
             contrib_alike HY contrib_grad HN) as (_ & Bc & _). destruct (Bc v Hw Hv) as (t & E & T).
        exists (bcon v), (batch_of (dy v)). split; auto. unfold bcon, work_back_contribution, work_back_local.
        pose proof Hw as Hw'. apply is_active_false in Hw'. rewrite Hw', E. exact T.
    - intros v Hx Hw Hy. unfold work_backward_by. apply is_active_false in Hx, Hw, Hy. now rewrite Hx, Hw, Hy.
  Qed.
End Work.
