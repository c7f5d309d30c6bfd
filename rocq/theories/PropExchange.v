(** C40: structure exchange and assembly; no history of a Broadcast or SumReduce
    layer deadlocks.  C45: the same if releasing communicators synchronises. *)

From Coq Require Import Sorting.Sorted.
From Verif Require Import Prelude ModelSlicing ModelPartition ModelGroupCreation ModelCollectives
  ModelExchange Collective Phases SpecIndex SpecLayout SpecPartition ProofSlicing ProofDecomposition
  ProofPartition PropPartition PropGroupCreation Ring Tensor ProofCollectives PropCollectives ProofExchange.

Definition well_formed_struct (s : tstruct) : Prop := nonneg_shape (st_shape s) /\ 0 <= st_dtype s.

(** The workers of the layer and possibly others. *)
Definition covers (all : list Z) (Px Py : part) : Prop :=
  NoDup all /\ forall v, In v (p_ranks Px) \/ In v (p_ranks Py) -> In v all.

Definition union_of (Px Py : part) : list Z := group_union (p_ranks Px) (p_ranks Py).

(** Histories whose releases, if any, do not wait for other workers. *)
Definition releases_local (sync : bool) (history : list lphase) : Prop :=
  sync = false \/ ~ In LTeardown history.

Definition C40_statement : Prop :=
  (* broadcast: every destination knows its source's structure *)
  (forall Px Py (same ts td : bool) st, bc_accepted Px Py ts td same -> bc_flags Px ts td ->
     (forall s, In s (p_ranks Px) -> well_formed_struct (st s)) ->
     forall s d, paired Px Py ts td s d ->
     broadcast_tensor_structure st (send_groups (create_broadcast_partition_to Px Py ts td))
       (recv_groups (create_broadcast_partition_to Px Py ts td)) d = Ok (Some (st s))) /\
  (* reduction: every destination knows the common structure of its sources *)
  (forall Px Py (same ts td : bool) st, rd_accepted Px Py ts td same -> bc_flags Py ts td ->
     forall d tau, In d (p_ranks Py) -> well_formed_struct tau ->
     (forall s, paired Py Px td ts d s -> st s = tau) ->
     broadcast_tensor_structure st (send_groups (create_reduction_partition_to Px Py ts td))
       (recv_groups (create_reduction_partition_to Px Py ts td)) d = Ok (Some tau)) /\
  (* every interleaving of every history of a layer completes *)
  (forall Px Py (same ts td sync : bool) all history, covers all Px Py -> releases_local sync history ->
     (bc_accepted Px Py ts td same ->
        deadlock_free lcomm_eq_dec all (lmembers (union_of Px Py)) (broadcast_prog Px Py same ts td sync history)) /\
     (rd_accepted Px Py ts td same ->
        deadlock_free lcomm_eq_dec all (lmembers (union_of Px Py)) (sum_reduce_prog Px Py same ts td sync history))) /\
  (* the assembled shape: sum of the local extents along each dimension *)
  (forall P shape v idx (at_ : nat -> Z -> Z), part_ok P -> worker_at P idx v ->
     (forall i k, 0 <= k < nth i (p_shape P) 0 -> worker_at P (upd i k idx) (at_ i k)) ->
     assemble_global_shape P shape v =
     Ok (map (fun i => zsum (map (fun k => nth i (shape (at_ i k)) 0) (zrange (nth i (p_shape P) 0))))
             (seq 0 (length (p_shape P))))) /\
  (* so for any blocks of a global tensor every worker gets the global shape *)
  (forall P Q st L d rg, part_ok P -> part_ok Q -> layout_ok L -> layout_workers L = p_shape P ->
     (forall v, In v (p_ranks P) -> In v (p_ranks Q)) ->
     (forall v idx, worker_at P idx v -> st v = mkst (block_shape L idx) d rg) ->
     forall v, In v (p_ranks Q) -> assemble_global_structure P Q st v = Ok (Some (mkst (layout_shape L) d rg))) /\
  (* the assembly completes in every interleaving *)
  (forall P out all, part_ok P -> NoDup out -> NoDup all ->
     (forall v, In v (p_ranks P) \/ In v out -> In v all) ->
     deadlock_free acomm_eq_dec all (amembers P out) (assemble_prog P out)).

(** ** Histories *)

Section History.
  Variables (all : list Z) (Px Py : part) (same ts td sync : bool).
  Variable create : Z -> result cross.
  Variable calls : Z -> list xcomm.
  Variables fwd bwd : option (list Z) -> option (list Z) -> list (instr (list Z)).
  Notation U := (union_of Px Py).
  Hypothesis Hcov : covers all Px Py.
  Hypothesis Hagree : groups_agree all (send_groups create) (recv_groups create).
  Hypothesis Hcreate : exists K B, good xcomm_eq_dec all (xmembers U) (bprog xcomm_eq_dec calls) K (xlevel (length U)) B.
  Hypothesis Hfwd : exists k l B, own_groups fwd k l B.
  Hypothesis Hbwd : exists k l B, own_groups bwd k l B.
  Hypothesis Hout : forall v, ~ In v (p_ranks Px) -> ~ In v (p_ranks Py) ->
    calls v = [] /\ send_groups create v = None /\ recv_groups create v = None.
  Hypothesis Hsame : same = true -> Px = Py.

  Lemma on_groups_good f : (exists k l B, own_groups f k l B) ->
    exists K l B, good lcomm_eq_dec all (lmembers U) (on_groups create f) K l B.
  Proof.
    intros (k & l & B & Hf). destruct (own_groups_good all _ _ _ _ _ _ Hagree Hf) as [K HK].
    do 3 eexists. exact (good_inr zl_eq_dec lcomm_eq_dec all (xmembers U) (fun g => g) _ _ _ _ HK).
  Qed.

  Lemma phase_good ph : (sync = false \/ ph <> LTeardown) ->
    exists K l B, good lcomm_eq_dec all (lmembers U) (phase_prog create calls Px Py same ts td sync fwd bwd ph) K l B.
  Proof.
    intros Hs.
    (* the identity case is the same on all workers *)
    destruct (existsb (is_identity same Px ts td) all) eqn:Eid.
    { apply existsb_exists in Eid as (v & Hv & Eid).
      pose proof (Hsame (identity_same _ _ _ _ _ Eid)) as HE.
      exists (fun _ => 0%nat), (fun _ _ => 0%nat), 0%nat.
      eapply good_ext; [|apply good_nil]. intros w Hw. unfold phase_prog.
      replace (quiet Px Py same ts td w) with true; auto. symmetry. unfold quiet.
      destruct (in_dec Z.eq_dec w (p_ranks Px)) as [I|I].
      - now rewrite (identity_uniform same Px ts td v w I Eid).
      - rewrite inactive_or; auto using orb_true_r. now rewrite <- HE. }
    assert (Hnid : forall w, In w all -> is_identity same Px ts td w = false).
    { intros w Hw. destruct (is_identity same Px ts td w) eqn:E; auto.
      assert (existsb (is_identity same Px ts td) all = true) by (apply existsb_exists; eauto). congruence. }
    set (free := fun w => match ph with
      | LSetup => seqp lcomm_eq_dec (map (instr_map inl) (bprog xcomm_eq_dec calls w))
                                  (on_groups create structure_prog w)
      | LForward => on_groups create fwd w
      | LBackward => on_groups create bwd w
      | LTeardown => on_groups create (fun s r => teardown_prog s r sync) w
      end).
    assert (HG : exists K l B, good lcomm_eq_dec all (lmembers U) free K l B).
    { unfold free. destruct ph.
      - destruct Hcreate as (K1 & B1 & HK1).
        destruct (on_groups_good structure_prog) as (K2 & l2 & B2 & HK2).
        { do 3 eexists. exact structure_own. }
        do 3 eexists. apply good_app; [|exact HK2].
        exact (good_inl xcomm_eq_dec lcomm_eq_dec all (xmembers U) (fun g => g) _ _ _ _ HK1).
      - now apply on_groups_good.
      - now apply on_groups_good.
      - destruct Hs as [->|Hs]; [|congruence]. apply on_groups_good. do 3 eexists. exact teardown_own. }
    destruct HG as (K & l & B & HG). exists K, l, B. eapply good_ext; [|exact HG].
    intros w Hw. unfold free, phase_prog, quiet. rewrite (Hnid w Hw). cbn [orb].
    destruct (is_active (p_ranks Px) w || is_active (p_ranks Py) w) eqn:Ea; [reflexivity|].
    apply orb_false_iff in Ea as [E1 E2]. apply is_active_false in E1, E2.
    destruct (Hout w E1 E2) as (C1 & C2 & C3). unfold on_groups. rewrite C2, C3.
    unfold bprog. rewrite C1. cbn [negb]. clear -Hfwd Hbwd.
    assert (HN : forall f, (exists k l B, own_groups f k l B) -> f None None = []).
    { intros f (k & l & B & Hf). destruct (f None None) as [|[g|g n] p] eqn:E; auto; exfalso.
      - destruct (og_post _ _ _ _ Hf None None g) as [H|H]; try discriminate. rewrite E. now left.
      - destruct (og_wait _ _ _ _ Hf None None g n) as [[H|H] _]; try discriminate. rewrite E. now left. }
    destruct ph; rewrite ?HN by auto; auto. destruct sync; reflexivity.
  Qed.

  Lemma history_good history : releases_local sync history ->
    deadlock_free lcomm_eq_dec all (lmembers U)
      (layer_prog create calls Px Py same ts td sync fwd bwd history).
  Proof.
    intros Hr. destruct (good_phases lcomm_eq_dec all (lmembers U)
      (map (phase_prog create calls Px Py same ts td sync fwd bwd) history)) as (K & l & B & HG).
    - intros p Hp. apply in_map_iff in Hp as (ph & <- & Hph). apply phase_good.
      destruct Hr as [H|H]; auto. right. intros ->. contradiction.
    - eapply good_deadlock_free; eauto. apply Hcov.
  Qed.
End History.

Lemma broadcast_history Px Py same ts td sync all history :
  covers all Px Py -> releases_local sync history -> bc_accepted Px Py ts td same ->
  deadlock_free lcomm_eq_dec all (lmembers (union_of Px Py)) (broadcast_prog Px Py same ts td sync history).
Proof.
  intros Hcov Hr (H1 & H2 & HR & HC & HS).
  set (U := union_of Px Py).
  assert (HU : forall u, In u U <-> In u (p_ranks Px) \/ In u (p_ranks Py)) by (intros; apply group_union_in).
  assert (HUN : NoDup U) by (apply group_union_nodup; [apply H1|apply H2]).
  assert (Hrun : forall w, In w U ->
      create_send_recv_calls (send_of Px Py ts td U w) (recv_of Px Py ts td U w) =
        Ok (calls_of (create_broadcast_partition_to Px Py ts td w)) \/
      create_send_recv_calls (recv_of Px Py ts td U w) (send_of Px Py ts td U w) =
        Ok (calls_of (create_broadcast_partition_to Px Py ts td w))).
  { intros w Hw. destruct (broadcast_run Px Py ts td H1 H2 HR HC w Hw) as (calls & Ec & ->). left. exact Ec. }
  apply history_good; auto.
  - apply cross_groups_agree with (1 := broadcast_cross_wf Px Py ts td H1 H2 HR HC). apply Hcov.
  - destruct (creation_good all U (fun v => calls_of (create_broadcast_partition_to Px Py ts td v))
                (broadcast_calls Px Py ts td)) as [K HK]; [| | | | |eauto].
    + intros v Hv. now apply Hcov, HU.
    + now apply (groups_wf_of Px Py ts td H1 H2 HC U HUN HU).
    + now apply (groups_self Px Py ts td U _ H1 H2 HC HUN HU).
    + intros w Hw. unfold broadcast_calls. rewrite <- (negb_involutive (_ || _)).
      rewrite inactive_or by (intros C; apply Hw, HU; auto). reflexivity.
    + intros w Hw. unfold broadcast_calls. rewrite <- (negb_involutive (_ || _)).
      rewrite active_or by now apply HU.
      destruct (broadcast_run Px Py ts td H1 H2 HR HC w Hw) as (calls & Ec & ->). apply cross_calls_ok.
  - do 3 eexists. exact ibcast_own.
  - do 3 eexists. apply own_swap. exact ireduce_own.
  - intros v I1 I2. unfold broadcast_calls. rewrite <- (negb_involutive (_ || _)).
    rewrite inactive_or by auto. split; auto.
    unfold send_groups, recv_groups. now rewrite bc_inactive.
Qed.

Lemma sum_reduce_history Px Py same ts td sync all history :
  covers all Px Py -> releases_local sync history -> rd_accepted Px Py ts td same ->
  deadlock_free lcomm_eq_dec all (lmembers (union_of Px Py)) (sum_reduce_prog Px Py same ts td sync history).
Proof.
  intros Hcov Hr (H1 & H2 & HR & HC & HS). symmetry in HR.
  set (U := union_of Px Py).
  assert (HU : forall u, In u U <-> In u (p_ranks Py) \/ In u (p_ranks Px))
    by (intros; unfold U, union_of; rewrite group_union_in; tauto).
  assert (HUN : NoDup U) by (apply group_union_nodup; [apply H1|apply H2]).
  assert (Hrun : forall w, In w U ->
      create_send_recv_calls (send_of Py Px td ts U w) (recv_of Py Px td ts U w) =
        Ok (calls_of (create_reduction_partition_to Px Py ts td w)) \/
      create_send_recv_calls (recv_of Py Px td ts U w) (send_of Py Px td ts U w) =
        Ok (calls_of (create_reduction_partition_to Px Py ts td w))).
  { intros w Hw. destruct (reduction_run Py Px td ts H2 H1 HR HC w Hw) as (calls & Ec & ->). right. exact Ec. }
  assert (Hcov' : forall v, In v (p_ranks Py) \/ In v (p_ranks Px) -> In v all) by (intros v Hv; apply Hcov; tauto).
  apply history_good; auto.
  - apply groups_agree_sym.
    now apply cross_groups_agree with (1 := reduction_cross_wf Py Px td ts H2 H1 HR HC).
  - destruct (creation_good all U (fun v => calls_of (create_reduction_partition_to Px Py ts td v))
                (reduction_calls Px Py ts td)) as [K HK]; [| | | | |eauto].
    + intros v Hv. now apply Hcov', HU.
    + now apply (groups_wf_of Py Px td ts H2 H1 HC U HUN HU).
    + now apply (groups_self Py Px td ts U _ H2 H1 HC HUN HU).
    + intros w Hw. unfold reduction_calls. rewrite <- (negb_involutive (_ || _)).
      rewrite inactive_or by (intros C; apply Hw, HU; auto). reflexivity.
    + intros w Hw. unfold reduction_calls. rewrite <- (negb_involutive (_ || _)).
      rewrite active_or by (apply HU in Hw; tauto).
      destruct (reduction_run Py Px td ts H2 H1 HR HC w Hw) as (calls & Ec & ->). apply cross_calls_ok.
  - do 3 eexists. exact ireduce_own.
  - do 3 eexists. apply own_swap. exact ibcast_own.
  - intros v I1 I2. unfold reduction_calls. rewrite <- (negb_involutive (_ || _)).
    rewrite inactive_or by auto. split; auto.
    unfold send_groups, recv_groups. now rewrite (rd_inactive Py Px td ts v I2 I1).
Qed.

(** ** Assembly of the global structure *)

Lemma cart_sub_ranks_spec P i v idx (at_ : Z -> Z) : part_ok P -> worker_at P idx v ->
  (forall k, 0 <= k < nth i (p_shape P) 0 -> worker_at P (upd i k idx) (at_ k)) ->
  cart_sub_ranks P i v = Ok (map at_ (zrange (nth i (p_shape P) 0))).
Proof.
  intros HP Hv Hat. unfold cart_sub_ranks.
  assert (E : index_in P v = Some idx) by now apply index_in_spec. rewrite E.
  rewrite (rmap_ok _ (fun k => row_major (p_shape P) (upd i k idx))).
  - cbn [rbind]. unfold incl_ranks. rewrite map_map. f_equal. apply map_ext_in.
    intros k Hk. apply in_zrange in Hk. destruct (Hat k) as [_ HN]; [lia|].
    now apply nth_error_nth.
  - intros k Hk. apply in_zrange in Hk. apply cart_rank_ok. now apply Hat.
Qed.

Lemma at_exists P idx v : part_ok P -> worker_at P idx v -> exists at_ : nat -> Z -> Z,
  forall i k, 0 <= k < nth i (p_shape P) 0 -> worker_at P (upd i k idx) (at_ i k).
Proof.
  intros HP [Hv _]. exists (fun i k => nth (Z.to_nat (row_major (p_shape P) (upd i k idx))) (p_ranks P) 0).
  intros i k Hk. assert (HV : valid_index (p_shape P) (upd i k idx)) by now apply valid_index_upd.
  split; auto. apply nth_error_nth'.
  destruct HP as (_ & _ & HPos & HL).
  pose proof (row_major_bound _ _ HV). lia.
Qed.

Lemma assemble_global_shape_spec P shape v idx (at_ : nat -> Z -> Z) : part_ok P -> worker_at P idx v ->
  (forall i k, 0 <= k < nth i (p_shape P) 0 -> worker_at P (upd i k idx) (at_ i k)) ->
  assemble_global_shape P shape v =
  Ok (map (fun i => zsum (map (fun k => nth i (shape (at_ i k)) 0) (zrange (nth i (p_shape P) 0))))
          (seq 0 (length (p_shape P)))).
Proof.
  intros HP Hv Hat. unfold assemble_global_shape. apply rmap_ok. intros i Hi.
  rewrite (cart_sub_ranks_spec P i v idx (at_ i)) by auto. cbn [rbind]. now rewrite map_map.
Qed.

Lemma assemble_layout P shape L v idx : part_ok P -> layout_ok L -> layout_workers L = p_shape P ->
  (forall v idx, worker_at P idx v -> shape v = block_shape L idx) -> worker_at P idx v ->
  assemble_global_shape P shape v = Ok (layout_shape L).
Proof.
  intros HP HL HW HS Hv. destruct (at_exists P idx v HP Hv) as [at_ Hat].
  rewrite (assemble_global_shape_spec P shape v idx at_) by auto. f_equal.
  assert (Hlen : length L = length (p_shape P)) by (rewrite <- HW; now rewrite layout_workers_length).
  apply list_eq_nth with (d := 0).
  - rewrite map_length, seq_length, layout_shape_length. auto.
  - intros i Hi. rewrite map_length, seq_length in Hi. rewrite nth_map_seq by auto.
    assert (Hn : nth i (p_shape P) 0 = Z.of_nat (length (nth i L []))).
    { rewrite <- HW. unfold layout_workers. rewrite (nth_indep _ 0 (Z.of_nat (length (@nil Z)))).
      - now rewrite (map_nth (fun e => Z.of_nat (length e))).
      - rewrite map_length. lia. }
    unfold layout_shape. rewrite (nth_indep (map zsum L) 0 (zsum [])) by (rewrite map_length; lia).
    rewrite (map_nth zsum). f_equal.
    apply list_eq_nth with (d := 0).
    + rewrite map_length, zrange_length. lia.
    + intros k Hk. rewrite map_length, zrange_length in Hk.
      rewrite (nth_indep _ 0 (nth i (shape (at_ i 0)) 0)) by (rewrite map_length, zrange_length; lia).
      rewrite (map_nth (fun k => nth i (shape (at_ i k)) 0)). rewrite zrange_nth by lia.
      rewrite (HS (at_ i (Z.of_nat k)) (upd i (Z.of_nat k) idx)) by (apply Hat; lia).
      unfold block_shape. destruct Hv as [Hv _]. apply valid_index_length in Hv.
      rewrite map2_nth with (da := []) (db := 0); [|lia|rewrite upd_length; lia].
      rewrite upd_nth_eq by lia. now rewrite Nat2Z.id.
Qed.

Lemma assemble_structure P Q st L d rg : part_ok P -> part_ok Q -> layout_ok L -> layout_workers L = p_shape P ->
  (forall v, In v (p_ranks P) -> In v (p_ranks Q)) ->
  (forall v idx, worker_at P idx v -> st v = mkst (block_shape L idx) d rg) ->
  forall v, In v (p_ranks Q) -> assemble_global_structure P Q st v = Ok (Some (mkst (layout_shape L) d rg)).
Proof.
  intros HP HQ HL HW HIn HS v Hv. unfold assemble_global_structure.
  assert (Ha : is_active (p_ranks Q) v = true) by now apply is_active_spec. rewrite Ha.
  rewrite (broadcast_data_first (p_ranks Q) P _ (Ok (layout_shape L))); auto.
  - cbn [rbind]. rewrite (broadcast_data_first (p_ranks Q) P _ d); auto.
    + cbn [rbind]. rewrite (broadcast_data_first (p_ranks Q) P _ (if rg then 1 else 0)); auto.
      * cbn [rbind]. destruct rg; reflexivity.
      * intros u Hu. destruct (worker_at_exists P u HP Hu) as [idx Hi]. now rewrite (HS u idx Hi).
    + intros u Hu. destruct (worker_at_exists P u HP Hu) as [idx Hi]. now rewrite (HS u idx Hi).
  - intros u Hu. destruct (worker_at_exists P u HP Hu) as [idx Hi].
    apply (assemble_layout P _ L u idx); auto. intros w j Hj. now rewrite (HS w j Hj).
Qed.

Lemma upd_upd {A} i (a b : A) l : upd i a (upd i b l) = upd i a l.
Proof. revert i. induction l as [|x l IH]; intros [|i]; simpl; auto. now rewrite IH. Qed.

Lemma cart_sub_fibre P i v g : part_ok P -> (i < length (p_shape P))%nat -> In v (p_ranks P) ->
  cart_sub_ranks P i v = Ok g ->
  In v g /\ forall m, In m g -> In m (p_ranks P) /\ cart_sub_ranks P i m = Ok g.
Proof.
  intros HP Hi Hv E. destruct (worker_at_exists P v HP Hv) as [idx Hw].
  destruct (at_exists P idx v HP Hw) as [at_ Hat].
  rewrite (cart_sub_ranks_spec P i v idx (at_ i)) in E by auto. inv E.
  pose proof (proj1 Hw) as HV. pose proof (valid_index_length _ _ HV) as HLen.
  apply valid_index_nth in HV as [_ HV]. split.
  - apply in_map_iff. exists (nth i idx 0). split; [|apply in_zrange; now apply HV].
    apply (worker_at_inj P (upd i (nth i idx 0) idx)); [now apply Hat, HV|].
    rewrite upd_same_nth by lia. auto.
  - intros m Hm. apply in_map_iff in Hm as (k & <- & Hk). apply in_zrange in Hk.
    specialize (Hat i). assert (Hmk := Hat k Hk).
    split; [now apply worker_at_In in Hmk|].
    apply cart_sub_ranks_spec with (idx := upd i k idx); auto.
    intros k' Hk'. rewrite upd_upd. auto.
Qed.

Lemma assemble_dim_good P out all i : part_ok P -> (i < length (p_shape P))%nat ->
  (forall v, In v (p_ranks P) \/ In v out -> In v all) ->
  exists K l B, good acomm_eq_dec all (amembers P out) (bprog acomm_eq_dec (assemble_dim_calls P i)) K l B.
Proof.
  intros HP Hi Hall.
  set (is_fibre g v := match cart_sub_ranks P i v with Ok h => zlist_eqb h g | Raise _ => false end).
  set (used g := existsb (is_fibre g) (p_ranks P)).
  assert (Hcalls : forall w, In w (p_ranks P) -> exists g, cart_sub_ranks P i w = Ok g /\
            assemble_dim_calls P i w = [AIn; ASub i g; ASub i g]).
  { intros w Hw. destruct (worker_at_exists P w HP Hw) as [idx Hx].
    destruct (at_exists P idx w HP Hx) as [at_ Hat].
    pose proof (cart_sub_ranks_spec P i w idx (at_ i) HP Hx (Hat i)) as E.
    exists (map (at_ i) (zrange (nth i (p_shape P) 0))). split; auto.
    unfold assemble_dim_calls. apply is_active_spec in Hw. now rewrite Hw, E. }
  assert (Hnone : forall w, ~ In w (p_ranks P) -> assemble_dim_calls P i w = []).
  { intros w Hw. unfold assemble_dim_calls. apply is_active_false in Hw. now rewrite Hw. }
  exists (fun c => match c with AIn => 1 | ASub j g => if (j =? i)%nat && used g then 2 else 0 | AOut => 0 end)%nat,
    (fun c n => match c with AIn => 0 | _ => n end)%nat, 3%nat.
  apply good_blocking.
  - intros w c Hw Hc. destruct (in_dec Z.eq_dec w (p_ranks P)) as [I|I]; [|rewrite Hnone in Hc by auto; easy].
    destruct (Hcalls w I) as (g & Eg & Ec). rewrite Ec in Hc.
    destruct Hc as [<-|Hc]; [simpl; auto|].
    assert (c = ASub i g) as -> by (destruct Hc as [<-|[<-|[]]]; auto).
    destruct (cart_sub_fibre P i w g HP Hi I Eg) as [H1 H2]. split; auto.
    intros m Hm. apply Hall. left. now apply H2.
  - intros w c Hw Hm. destruct (in_dec Z.eq_dec w (p_ranks P)) as [I|I].
    + destruct (Hcalls w I) as (g & Eg & ->). destruct c as [|j h|]; cbn [count_occ].
      * destruct (acomm_eq_dec AIn AIn); [|congruence].
        destruct (acomm_eq_dec (ASub i g) AIn); [congruence|reflexivity].
      * destruct (acomm_eq_dec AIn (ASub j h)); [congruence|].
        destruct (acomm_eq_dec (ASub i g) (ASub j h)) as [E|E].
        -- assert (Eu : used g = true).
           { apply existsb_exists. exists w. split; auto. unfold is_fibre. rewrite Eg. apply zlist_eqb_refl. }
           injection E as <- <-. rewrite Nat.eqb_refl, Eu. reflexivity.
        -- destruct (Nat.eqb_spec j i) as [->|N]; auto. cbn [andb].
           destruct (used h) eqn:Eu; auto. exfalso. apply E. f_equal.
           apply existsb_exists in Eu as (u & Iu & Eu). unfold is_fibre in Eu.
           destruct (cart_sub_ranks P i u) as [h'|] eqn:Eh; [|discriminate]. apply zlist_eqb_eq in Eu. subst h'.
           destruct (cart_sub_fibre P i u h HP Hi Iu Eh) as [_ H2].
           destruct (H2 w Hm) as [_ E2]. congruence.
      * destruct (acomm_eq_dec AIn AOut); [congruence|].
        destruct (acomm_eq_dec (ASub i g) AOut); [congruence|reflexivity].
    + rewrite Hnone by auto. destruct c as [|j h|]; simpl in *; auto; [contradiction|].
      destruct (Nat.eqb_spec j i) as [->|N]; auto. cbn [andb].
      destruct (used h) eqn:Eu; auto. exfalso. apply I.
      apply existsb_exists in Eu as (u & Iu & Eu). unfold is_fibre in Eu.
      destruct (cart_sub_ranks P i u) as [h'|] eqn:Eh; [|discriminate]. apply zlist_eqb_eq in Eu. subst h'.
      destruct (cart_sub_fibre P i u h HP Hi Iu Eh) as [_ H2]. now apply H2.
  - intros w Hw. destruct (in_dec Z.eq_dec w (p_ranks P)) as [I|I]; [|rewrite Hnone by auto; constructor].
    destruct (Hcalls w I) as (g & Eg & ->). cbn [numbered map fst snd count_occ].
    destruct (acomm_eq_dec AIn (ASub i g)); [congruence|].
    destruct (acomm_eq_dec (ASub i g) (ASub i g)); [|congruence].
    repeat (constructor; [|repeat (constructor; [lia|]); constructor]). constructor.
  - intros w c n Hw Hc Hn. destruct c as [|j g|]; [lia| |lia].
    destruct ((j =? i)%nat && used g); lia.
Qed.

Lemma assemble_out_good P out all : (forall v, In v (p_ranks P) \/ In v out -> In v all) ->
  exists K l B, good acomm_eq_dec all (amembers P out) (bprog acomm_eq_dec (assemble_out_calls out)) K l B.
Proof.
  intros Hall.
  exists (fun c => match c with AOut => 15 | ASub _ _ => 0 | AIn => 0 end)%nat, (fun c n => n), 16%nat.
  assert (Hc : forall w, assemble_out_calls out w = if is_active out w then repeat AOut 15 else []) by reflexivity.
  apply good_blocking.
  - intros w c Hw H. rewrite Hc in H. destruct (is_active out w) eqn:E; [|easy].
    apply repeat_spec in H. subst c. simpl. split; [now apply is_active_spec|auto].
  - intros w c Hw Hm. rewrite Hc. destruct (is_active out w) eqn:E.
    + destruct c as [|j g|]; reflexivity.
    + destruct c as [|j g|]; auto. simpl in Hm. apply is_active_spec in Hm. congruence.
  - intros w Hw. rewrite Hc. destruct (is_active out w); [|constructor]. simpl.
    repeat (constructor; [|repeat (constructor; [lia|]); constructor]). constructor.
  - intros w c n Hw H Hn. destruct c; lia.
Qed.

Lemma C40_proof : C40_statement.
Proof.
  split; [|split; [|split; [|split; [|split]]]].
  - intros Px Py same ts td st (H1 & H2 & HR & HC & HS) HF Hst s d Hp.
    assert (Hd : In d (p_ranks Py)) by (destruct Hp as (a & b & _ & Hb & _); now apply worker_at_In in Hb).
    apply csrc_paired in Hp; auto. subst s.
    destruct (csrc_spec Px Py ts td H1 H2 HC d Hd) as [Hs _].
    apply (bc_structure _ _ _ _ _ (broadcast_cross_wf Px Py ts td H1 H2 HR HC) st d Hd); now apply Hst.
  - intros Px Py same ts td st (H1 & H2 & HR & HC & HS) HF d tau Hd [Hw1 Hw2] Hst. symmetry in HR.
    assert (HF' : td = ts \/ at_most_one_nontrivial (p_shape Py)) by (destruct HF; auto).
    apply (rd_structure _ _ _ _ _ (reduction_cross_wf Py Px td ts H2 H1 HR HC) st d tau Hd); auto.
    + now apply csrc_surj.
    + intros u Hu Eu. apply Hst. apply csrc_paired; auto.
  - intros Px Py same ts td sync all history Hcov Hr. split; intros HA.
    + now apply broadcast_history.
    + now apply sum_reduce_history.
  - intros P shape v idx at_ HP Hv Hat. now apply assemble_global_shape_spec with (idx := idx).
  - intros P Q st L d rg HP HQ HL HW HIn HS v Hv. now apply assemble_structure.
  - intros P out all HP HO HA Hall.
    destruct (good_phases acomm_eq_dec all (amembers P out)
      (map (fun i => bprog acomm_eq_dec (assemble_dim_calls P i)) (seq 0 (length (p_shape P)))
       ++ [bprog acomm_eq_dec (assemble_out_calls out)])) as (K & l & B & HG).
    + intros p Hp. apply in_app_iff in Hp as [Hp|[<-|[]]].
      * apply in_map_iff in Hp as (i & <- & Hi). apply in_seq in Hi. apply assemble_dim_good; auto. lia.
      * now apply assemble_out_good.
    + eapply good_deadlock_free; eauto.
Qed.

Theorem C40_structure_exchange : C40_statement.
Proof. exact C40_proof. Qed.

(** Worker 2 is a source and a destination: it learns worker 0's structure, not its
    own, and a destination-only worker's initial structure does not matter. *)
Definition ex40_st (v : Z) : tstruct :=
  if v =? 0 then mkst [4; 5] 3 true else if v =? 2 then mkst [7] 1 false else mkst [] 9 true.

Example C40_example :
  bc_accepted ex_src ex_dst false false false /\ bc_flags ex_src false false /\
  paired ex_src ex_dst false false 0 2 /\
  broadcast_tensor_structure ex40_st (send_groups (create_broadcast_partition_to ex_src ex_dst false false))
    (recv_groups (create_broadcast_partition_to ex_src ex_dst false false)) 2 = Ok (Some (mkst [4; 5] 3 true)) /\
  covers [0; 1; 2; 3; 4; 5; 6; 7; 8] ex_src ex_dst /\
  length (broadcast_prog ex_src ex_dst false false false false
            [LSetup; LForward; LBackward; LForward; LTeardown; LSetup; LForward] 2) = 114%nat /\
  (* a 2x3 partition holding unequal blocks *)
  assemble_global_shape (mkpart 0 [5; 4; 3; 2; 1; 0] [2; 3])
    (fun v => nth (Z.to_nat (5 - v)) [[4; 2]; [4; 7]; [4; 1]; [3; 2]; [3; 7]; [3; 1]] []) 1 = Ok [7; 10].
Proof.
  split; [|split; [|split; [|split; [reflexivity|split; [|split; [reflexivity|reflexivity]]]]]].
  - split; [|split; [|split; [reflexivity|split; [|discriminate]]]].
    + repeat split; try discriminate; repeat constructor; simpl; lia.
    + repeat split; try discriminate; repeat constructor; simpl; lia.
    + split; [simpl; lia|]. repeat constructor; auto.
  - now left.
  - exists [0; 0], [0; 0; 0]. repeat split; simpl; repeat constructor; lia.
  - split; [repeat constructor; simpl; lia|]. simpl. lia.
Qed.

Print Assumptions C40_structure_exchange.

(** ** C45: releasing communicators that synchronises *)

(** Every history completes in every interleaving whether or not
    MPI_Comm_free waits for the other members of the communicator. *)
Definition C45_statement : Prop :=
  forall Px Py (same ts td sync : bool) all history, covers all Px Py ->
     (bc_accepted Px Py ts td same ->
        deadlock_free lcomm_eq_dec all (lmembers (union_of Px Py)) (broadcast_prog Px Py same ts td sync history)) /\
     (rd_accepted Px Py ts td same ->
        deadlock_free lcomm_eq_dec all (lmembers (union_of Px Py)) (sum_reduce_prog Px Py same ts td sync history)).

(** What holds: a release that does not wait. *)
Theorem C45_release_partial : forall Px Py (same ts td : bool) all history, covers all Px Py ->
     (bc_accepted Px Py ts td same ->
        deadlock_free lcomm_eq_dec all (lmembers (union_of Px Py)) (broadcast_prog Px Py same ts td false history)) /\
     (rd_accepted Px Py ts td same ->
        deadlock_free lcomm_eq_dec all (lmembers (union_of Px Py)) (sum_reduce_prog Px Py same ts td false history)).
Proof.
  intros Px Py same ts td all history Hc.
  split; intros HA; [apply broadcast_history|apply sum_reduce_history]; auto; now left.
Qed.

(** A scheduler that always runs the first enabled worker. *)
Section Scheduler.
  Context {C : Type}.
  Variable dec : forall a b : C, {a = b} + {a <> b}.
  Variable workers : list Z.
  Variable prog : Z -> list (instr C).
  Variable members : C -> list Z.

  Definition enabledb (s : cstate) (w : Z) : bool :=
    match nth_error (prog w) (s w) with
    | None => false
    | Some (Post _) => true
    | Some (Wait c n) => forallb (fun m => (n <=? posted dec prog s m c)%nat) (members c)
    end.

  Lemma enabledb_spec s w : enabledb s w = true <-> enabled dec prog members s w.
  Proof.
    unfold enabledb, enabled. destruct (nth_error (prog w) (s w)) as [[c|c n]|].
    - tauto.
    - rewrite forallb_forall. split; intros H m Hm; apply Nat.leb_le; now apply H.
    - split; [discriminate|easy].
  Qed.

  Fixpoint greedy (fuel : nat) (s : cstate) : cstate :=
    match fuel with
    | O => s
    | S k => match find (enabledb s) workers with
             | Some w => greedy k (advance s w)
             | None => s
             end
    end.

  Lemma greedy_reach fuel s : creach dec workers prog members s ->
    creach dec workers prog members (greedy fuel s).
  Proof.
    revert s. induction fuel as [|k IH]; intros s H; simpl; auto.
    destruct (find (enabledb s) workers) as [w|] eqn:E; auto.
    apply find_some in E as [Hw He]. apply IH. eapply creach_step; eauto.
    exists w. split; auto. split; auto. now apply enabledb_spec.
  Qed.

  Lemma stuck_spec s : forallb (fun w => negb (enabledb s w)) workers = true ->
    forall s', ~ cstep dec workers prog members s s'.
  Proof.
    intros H s' (w & Hw & He & _). rewrite forallb_forall in H. specialize (H w Hw).
    apply enabledb_spec in He. rewrite He in H. discriminate.
  Qed.
End Scheduler.

(** Two workers broadcasting to each other: worker 0 releases the group it sends in
    and waits for worker 1, which is releasing the other group. *)
Definition ex45_src : part := mkpart 0 [0; 1] [2].
Definition ex45_dst : part := mkpart 0 [1; 0] [2].

Theorem C45_synchronous_release_refuted : ~ C45_statement.
Proof.
  intros H.
  assert (HA : bc_accepted ex45_src ex45_dst false false false).
  { split; [|split; [|split; [reflexivity|split; [|discriminate]]]].
    - repeat split; try discriminate; repeat constructor; simpl; lia.
    - repeat split; try discriminate; repeat constructor; simpl; lia.
    - split; [simpl; lia|]. repeat constructor; auto. }
  assert (Hc : covers [0; 1] ex45_src ex45_dst).
  { split; [repeat constructor; simpl; lia|]. simpl. lia. }
  destruct (H ex45_src ex45_dst false false false true [0; 1] [LSetup; LForward; LTeardown] Hc) as [HB _].
  destruct (HB HA) as (_ & _ & HF). clear H HB.
  set (p := broadcast_prog ex45_src ex45_dst false false false true [LSetup; LForward; LTeardown]) in *.
  set (m := lmembers (union_of ex45_src ex45_dst)) in *.
  set (s := greedy lcomm_eq_dec [0; 1] p m 200 cinit).
  specialize (HF s (greedy_reach _ _ _ _ 200 _ (creach_init _ _ _ _))).
  assert (HS : forall s', ~ cstep lcomm_eq_dec [0; 1] p m s s').
  { apply stuck_spec. vm_compute. reflexivity. }
  specialize (HF HS 0 (or_introl eq_refl)). unfold finished in HF.
  assert (E : Nat.eqb (s 0) (length (p 0)) = false) by (vm_compute; reflexivity).
  rewrite HF, Nat.eqb_refl in E. discriminate.
Qed.

Print Assumptions C45_release_partial.
Print Assumptions C45_synchronous_release_refuted.
