(** Proofs about the halo exchange in machine arithmetic. *)

From Coq Require Import RelationClasses Sorting.Permutation.
From Verif Require Import Prelude SpecIndex SpecLayout SpecPartition SpecHalo SpecSum ModelSlicing ModelDecomposition
  ModelPartition ProofSlicing ProofDecomposition ProofPartition PropPartition Ring Tensor Blocks P2P Rounds
  ModelRepartition ProofRepartition ProofTransfer PropRepartition ModelHaloMixin ProofHaloMixin PropHaloMixin
  ModelHaloExchange ProofHaloLinks ProofHaloZones PropHaloExchange ProofFeatureGrad PropFeatureLayer
  ModelHaloReduce SpecHaloSum ProofSimulation.

Lemma valid_index_dec sh i : {valid_index sh i} + {~ valid_index sh i}.
Proof.
  destruct (in_dec (list_eq_dec Z.eq_dec) i (indices sh)) as [Hi|Hi]; [left; now apply in_indices|right].
  intros Hv. apply Hi. now apply in_indices.
Qed.

(** * One entry of the backward pass in a ring *)

Section Unit.
  Context {R : CRing}.
  Add Ring R_ring : (rth R).
  Variables (world : list Z) (P : part) (L : layout) (H : halos).
  Variables (shape : Z -> list Z) (recv send : Z -> list (Z * Z)).
  Hypothesis HG : halo_given world P L H.
  Hypothesis HN : halos_narrow L H.
  Hypothesis HPl : planned P L H shape recv send.
  Variables (pre : list (@call R)) (dy : Z -> tensor R) (init : Z -> @hst R) (eager : Z -> Z -> Z -> nat -> bool)
    (gb : @gst (@hst R) (tensor R)).
  Hypothesis Hc : Forall (call_ok P L H) (pre ++ [HBackward dy]).
  Hypothesis He : ends world (history_rounds P shape recv send (pre ++ [HBackward dy])) init eager gb.
  Variables (idx : list Z) (v : Z) (q : list Z).
  Hypothesis Hw : worker_at P idx v.
  Hypothesis Hq : valid_index (padded_shape L H idx) q.

  Definition unit_arg (u : Z) : tensor R :=
    if Z.eq_dec u v then unit_at (padded_shape L H idx) q else tzeros (tshape (dy u)).

  Lemma unit_shape u : tshape (unit_arg u) = tshape (dy u).
  Proof.
    unfold unit_arg. destruct (Z.eq_dec u v) as [->|_]; [|reflexivity]. cbn [unit_at tshape].
    apply Forall_app in Hc as [_ Hc']. inv Hc'. symmetry. auto.
  Qed.

  Definition is_bulk (p : list Z) : Prop := valid_index (block_shape L idx) p /\ q = vadd (left_halo H idx) p.

  (** What the forward pass makes of the unit tensor. *)
  Lemma unit_forward (G : tensor R) :
    (forall idx' u p', worker_at P idx' u -> valid_index (block_shape L idx') p' ->
       tat (unit_arg u) (vadd (left_halo H idx') p') = tat G (vadd (block_lo L idx') p')) ->
    exists Y : Z -> tensor R,
      tat (halo_result gb v) q = world_inner world Y dy /\
      (forall u, In u world -> tshape (Y u) = tshape (dy u)) /\
      (forall idx' u q', worker_at P idx' u -> valid_index (padded_shape L H idx') q' ->
         tat (Y u) q' = tat G (global_point L H idx' q')) /\
      (forall u q', In u world -> ~ In u (p_ranks P) -> valid_index (tshape (dy u)) q' -> tat (Y u) q' = rzero).
  Proof.
    intros HGx. pose proof HG as (G1 & G2 & G3 & G4 & G5 & G6).
    assert (Hcd : forall i u, worker_at P i u -> tshape (dy u) = padded_shape L H i).
    { apply Forall_app in Hc as [_ Hc']. inv Hc'. auto. }
    assert (Hcx : Forall (call_ok P L H) ([] ++ [HForward unit_arg])).
    { constructor; [|constructor]. intros i u Hu. rewrite unit_shape. auto. }
    destruct (async_ends _ _ _ _ (fun _ _ _ _ => true)
      (halo_async world P L H shape recv send HG HPl ([] ++ [HForward unit_arg]) (fun _ => mkhst (tzeros []) (tzeros []) (tzeros []) [])))
      as [gf Hf].
    exists (halo_result gf).
    destruct (C26_halo_exchange_adjoint R world P L H shape recv send [] pre unit_arg dy _ init _ eager gf gb
      HG (narrow_fits L H G6 HN) HPl Hcx Hc (fun u _ _ => unit_shape u) Hf He) as [S1 S2].
    destruct (C25_halo_exchange_fills R world P L H shape recv send G [] unit_arg _ _ gf HG HN HPl Hcx HGx Hf) as [F1 F2].
    assert (Hv : In v (p_ranks P)) by (eapply worker_at_In; eauto).
    split; [|split; [|split]].
    - rewrite S2. unfold world_inner. rewrite (sumf_single world _ v); auto.
      + unfold unit_arg. destruct (Z.eq_dec v v); [|congruence]. now rewrite unit_inner.
      + intros u _ Hu. unfold unit_arg. destruct (Z.eq_dec u v); [congruence|]. unfold inner. apply sumf_zero.
        intros i _. cbn [tzeros tat]. ring.
    - intros u Hu. rewrite (proj1 (S1 u Hu)). apply unit_shape.
    - intros idx' u q' Hu Hq'. destruct (F1 idx' u Hu) as (_ & F & _). apply F; auto.
    - intros u q' Hu Hn Hq'. destruct (F2 u Hu Hn) as [T1 T2]. rewrite T2.
      + unfold unit_arg. destruct (Z.eq_dec u v); [congruence|]. reflexivity.
      + rewrite T1, unit_shape. auto.
  Qed.

  Lemma left_length i : length i = length L -> length (left_halo H i) = length L.
  Proof.
    intros Hl. destruct HG as (_ & _ & _ & _ & _ & G6). pose proof (H_length L H G6).
    unfold left_halo, recv_plan. rewrite map_length, map2_length; lia.
  Qed.

  Lemma worker_length i u : worker_at P i u -> length i = length L.
  Proof. intros [Hv _]. apply valid_index_length in Hv. now rewrite (dim_eq world P L H HG) in Hv. Qed.

  Lemma vadd_inj a b c : length a = length b -> length a = length c -> vadd a b = vadd a c -> b = c.
  Proof.
    intros E1 E2 E. rewrite <- (vadd_vsub a b), <- (vadd_vsub a c) by auto. now rewrite E.
  Qed.

  Lemma unit_bulk p : is_bulk p ->
    forall idx' u p', worker_at P idx' u -> valid_index (block_shape L idx') p' ->
      tat (unit_arg u) (vadd (left_halo H idx') p') =
      tat (unit_at (layout_shape L) (vadd (block_lo L idx) p)) (vadd (block_lo L idx') p').
  Proof.
    intros [Hp Eq] idx' u p' Hu Hp'. pose proof HG as (G1 & G2 & G3 & G4 & G5 & G6).
    pose proof (worker_length _ _ Hw) as Hl. pose proof (worker_length _ _ Hu) as Hl'.
    pose proof (valid_index_length _ _ Hp) as Lp. pose proof (valid_index_length _ _ Hp') as Lp'.
    rewrite block_shape_length in Lp, Lp' by auto.
    pose proof (block_lo_length L idx Hl) as Lb.
    unfold unit_arg. destruct (Z.eq_dec u v) as [->|Hne].
    - assert (idx' = idx) by (eapply worker_at_fun; eauto). subst idx'. cbn [unit_at tat]. rewrite Eq.
      pose proof (left_length idx Hl) as Ll.
      destruct (zlist_eqb (vadd (left_halo H idx) p) _) eqn:E1; destruct (zlist_eqb (vadd (block_lo L idx) p) _) eqn:E2; auto.
      + apply zlist_eqb_eq in E1. apply vadd_inj in E1; try lia. subst p'.
        rewrite (proj2 (zlist_eqb_eq _ _) eq_refl) in E2. discriminate.
      + apply zlist_eqb_eq in E2. apply vadd_inj in E2; try lia. subst p'.
        rewrite (proj2 (zlist_eqb_eq _ _) eq_refl) in E1. discriminate.
    - cbn [tzeros tat unit_at]. destruct (zlist_eqb _ _) eqn:E; auto. exfalso. apply zlist_eqb_eq in E.
      pose proof (proj1 Hw) as V. pose proof (proj1 Hu) as V'. rewrite <- G5 in V, V'.
      assert (idx' = idx).
      { rewrite <- (owner_unique L G4 (vadd (block_lo L idx) p) idx') by (auto; rewrite E; now apply point_in_block).
        apply owner_unique; auto. now apply point_in_block. }
      subst idx'. apply Hne. eapply worker_at_inj; eauto.
  Qed.

  Lemma unit_halo : (forall p, ~ is_bulk p) ->
    forall idx' u p', worker_at P idx' u -> valid_index (block_shape L idx') p' ->
      tat (unit_arg u) (vadd (left_halo H idx') p') = tat (tzeros (layout_shape L)) (vadd (block_lo L idx') p').
  Proof.
    intros Hb idx' u p' Hu Hp'. pose proof HG as (G1 & G2 & G3 & G4 & G5 & G6).
    unfold unit_arg. destruct (Z.eq_dec u v) as [->|Hne]; [|reflexivity].
    assert (idx' = idx) by (eapply worker_at_fun; eauto). subst idx'. cbn [unit_at tat tzeros].
    destruct (zlist_eqb q _) eqn:E; auto. apply zlist_eqb_eq in E. exfalso. apply (Hb p'). now split.
  Qed.

  Lemma bulk_dec : (exists p, is_bulk p) \/ (forall p, ~ is_bulk p).
  Proof.
    destruct (in_dec (list_eq_dec Z.eq_dec) q (map (vadd (left_halo H idx)) (indices (block_shape L idx)))) as [Hi|Hi].
    - left. apply in_map_iff in Hi as (p & E & Hp). exists p. split; auto. now apply in_indices.
    - right. intros p [Hp E]. apply Hi. apply in_map_iff. exists p. split; auto. now apply in_indices.
  Qed.

  Lemma zero_backward : (forall u q', tat (dy u) q' = rzero) -> tat (halo_result gb v) q = rzero.
  Proof.
    intros H0.
    assert (K : forall Y : Z -> tensor R, world_inner world Y dy = rzero).
    { intros Y. unfold world_inner. apply sumf_zero. intros u _. unfold inner. apply sumf_zero. intros i _. rewrite H0. ring. }
    destruct bulk_dec as [[p Hp]|Hb].
    - destruct (unit_forward _ (unit_bulk p Hp)) as (Y & -> & _). auto.
    - destruct (unit_forward _ (unit_halo Hb)) as (Y & -> & _). auto.
  Qed.

  (** ** Cotangents that are zero but for one entry *)
  Variables (u0 : Z) (q0 : list Z).
  Hypothesis Hd : forall u q', tat (dy u) q' = if Z.eq_dec u u0 then if zlist_eqb q0 q' then rone else rzero else rzero.

  Lemma pick (Y : Z -> tensor R) : (forall u, In u world -> tshape (Y u) = tshape (dy u)) ->
    (In u0 world -> valid_index (tshape (dy u0)) q0 -> world_inner world Y dy = tat (Y u0) q0) /\
    (~ In u0 world \/ ~ valid_index (tshape (dy u0)) q0 -> world_inner world Y dy = rzero).
  Proof.
    intros HS. split.
    - intros Hi Hv0. unfold world_inner. rewrite (sumf_single world _ u0); [|apply HG|auto|].
      + unfold inner. rewrite (HS u0 Hi). rewrite (sumf_single _ _ q0); [|apply indices_nodup|now apply in_indices|].
        * rewrite Hd. destruct (Z.eq_dec u0 u0); [|congruence]. rewrite (proj2 (zlist_eqb_eq q0 q0) eq_refl). ring.
        * intros i _ Hi0. rewrite Hd. destruct (Z.eq_dec u0 u0); [|ring].
          destruct (zlist_eqb q0 i) eqn:E; [apply zlist_eqb_eq in E; congruence|ring].
      + intros u _ Hu. unfold inner. apply sumf_zero. intros i _. rewrite Hd.
        destruct (Z.eq_dec u u0); [congruence|ring].
    - intros Hn. unfold world_inner. apply sumf_zero. intros u Hu. unfold inner. apply sumf_zero. intros i Hi.
      rewrite Hd. destruct (Z.eq_dec u u0) as [->|_]; [|ring]. destruct (zlist_eqb q0 i) eqn:E; [|ring].
      apply zlist_eqb_eq in E. subst i. apply in_indices in Hi. rewrite (HS u0 Hu) in Hi. tauto.
  Qed.

  (** The entry [q] of worker [v] is the number of copies. *)
  Lemma unit_backward :
    (forall p, is_bulk p ->
       ((exists i, worker_at P i u0 /\ valid_index (padded_shape L H i) q0 /\ global_point L H i q0 = vadd (block_lo L idx) p) ->
          tat (halo_result gb v) q = rone) /\
       (~ (exists i, worker_at P i u0 /\ valid_index (padded_shape L H i) q0 /\ global_point L H i q0 = vadd (block_lo L idx) p) ->
          tat (halo_result gb v) q = rzero)) /\
    ((forall p, ~ is_bulk p) -> tat (halo_result gb v) q = rzero).
  Proof.
    pose proof HG as (G1 & G2 & G3 & G4 & G5 & G6).
    assert (Hcd : forall i u, worker_at P i u -> tshape (dy u) = padded_shape L H i).
    { apply Forall_app in Hc as [_ Hc']. inv Hc'. auto. }
    assert (K : forall Y G, tat (halo_result gb v) q = world_inner world Y dy ->
      (forall u, In u world -> tshape (Y u) = tshape (dy u)) ->
      (forall idx' u q', worker_at P idx' u -> valid_index (padded_shape L H idx') q' ->
         tat (Y u) q' = tat G (global_point L H idx' q')) ->
      (forall u q', In u world -> ~ In u (p_ranks P) -> valid_index (tshape (dy u)) q' -> tat (Y u) q' = rzero) ->
      (forall i, worker_at P i u0 -> valid_index (padded_shape L H i) q0 ->
         tat (halo_result gb v) q = tat G (global_point L H i q0)) /\
      (~ (exists i, worker_at P i u0 /\ valid_index (padded_shape L H i) q0) -> tat (halo_result gb v) q = rzero)).
    { intros Y G E HS HY HO. destruct (pick Y HS) as [K1 K2]. rewrite E. split.
      - intros i Hi Hv0. rewrite K1; auto.
        + apply G2. eapply worker_at_In; eauto.
        + rewrite (Hcd _ _ Hi). auto.
      - intros Hn. destruct (in_dec Z.eq_dec u0 world) as [Hi|Hi]; [|apply K2; now left].
        destruct (valid_index_dec (tshape (dy u0)) q0) as [V|V]; [|apply K2; now right].
        rewrite K1 by auto. destruct (in_dec Z.eq_dec u0 (p_ranks P)) as [Hr|Hr]; [|apply HO; auto].
        exfalso. apply Hn. destruct (worker_at_exists P u0 G3 Hr) as [i Hi']. exists i. split; auto.
        now rewrite <- (Hcd _ _ Hi'). }
    split.
    - intros p Hp. destruct (unit_forward _ (unit_bulk p Hp)) as (Y & E & HS & HY & HO).
      destruct (K _ _ E HS HY HO) as [K1 K2]. split.
      + intros (i & Hi & Hv0 & Eg). rewrite (K1 i Hi Hv0), Eg. cbn [unit_at tat].
        now rewrite (proj2 (zlist_eqb_eq _ _) eq_refl).
      + intros Hn. destruct (in_dec Z.eq_dec u0 (p_ranks P)) as [Hr|Hr].
        * destruct (worker_at_exists P u0 G3 Hr) as [i Hi].
          destruct (valid_index_dec (padded_shape L H i) q0) as [V|V].
          -- rewrite (K1 i Hi V). cbn [unit_at tat]. destruct (zlist_eqb _ _) eqn:E'; auto.
             exfalso. apply zlist_eqb_eq in E'. apply Hn. exists i. auto.
          -- apply K2. intros (j & Hj & V'). assert (j = i) by (eapply worker_at_fun; eauto). subst j. auto.
        * apply K2. intros (j & Hj & _). apply Hr. eapply worker_at_In; eauto.
    - intros Hb. destruct (unit_forward _ (unit_halo Hb)) as (Y & E & HS & HY & HO).
      destruct (K _ _ E HS HY HO) as [K1 K2].
      destruct (in_dec Z.eq_dec u0 (p_ranks P)) as [Hr|Hr].
      + destruct (worker_at_exists P u0 G3 Hr) as [i Hi].
        destruct (valid_index_dec (padded_shape L H i) q0) as [V|V].
        * rewrite (K1 i Hi V). reflexivity.
        * apply K2. intros (j & Hj & V'). assert (j = i) by (eapply worker_at_fun; eauto). subst j. auto.
      + apply K2. intros (j & Hj & _). apply Hr. eapply worker_at_In; eauto.
  Qed.
End Unit.

(** * Counting what is added *)

(** The entries of the cotangents; [None] stands for all other data. *)
Definition entry : Type := Z * list Z.
Definition entry_dec (a b : entry) : {a = b} + {a <> b}.
Proof. decide equality; [apply (list_eq_dec Z.eq_dec)|apply Z.eq_dec]. Defined.

Section Count.
  Context {R : CRing}.
  Variable M : machine R.
  Variable dy : Z -> tensor R.
  Notation tensorZ := (tensor Zring).
  Notation fam := (option entry).
  Notation S2 := (fam -> @hst Zring).
  Notation M2 := (fam -> tensorZ).

  Definition entry_term (k : entry) : term R := Num (tat (dy (fst k)) (snd k)).

  (** [z k] counts the times entry [k] was added to get [r]. *)
  Definition counts_of (r : R) (z : fam -> Z) : Prop :=
    (forall k, 0 <= z k) /\
    (z None = 0 -> exists l, evaluates M (map entry_term l) r /\ forall k, z (Some k) = Z.of_nat (count_occ entry_dec l k)).

  Definition t_rel (t : tensor R) (T : M2) : Prop :=
    (forall k, tshape (T k) = tshape t) /\ forall i, counts_of (tat t i) (fun k => tat (T k) i).

  Definition h_rel (l : list (tensor R)) (F : fam -> list tensorZ) : Prop :=
    (forall k, length (F k) = length l) /\
    forall n d D, (n < length l)%nat -> t_rel (nth n l d) (fun k => nth n (F k) (D k)).

  Record s_rel (s : @hst R) (s2 : S2) : Prop := {
    sr_t : t_rel (h_t s) (fun k => h_t (s2 k));
    sr_l : t_rel (h_l s) (fun k => h_l (s2 k));
    sr_r : t_rel (h_r s) (fun k => h_r (s2 k));
    sr_hist : h_rel (h_hist s) (fun k => h_hist (s2 k))
  }.

  Lemma counts_zero : counts_of rzero (fun _ => 0).
  Proof. split; [lia|]. intros _. exists []. split; [apply ev_zero|]. reflexivity. Qed.

  Lemma counts_ext r z z' : (forall k, z' k = z k) -> counts_of r z -> counts_of r z'.
  Proof.
    intros E [H1 H2]. split; [intros k; rewrite E; auto|]. rewrite E. intros E0. destruct (H2 E0) as (l & Hl & C).
    exists l. split; auto. intros k. rewrite E. auto.
  Qed.

  Lemma counts_junk r z : (forall k, 0 <= z k) -> z None = 1 -> counts_of r z.
  Proof. intros H E. split; auto. rewrite E. discriminate. Qed.

  Lemma counts_add r r' z z' : counts_of r z -> counts_of r' z' -> counts_of (m_add M r r') (fun k => z k + z' k).
  Proof.
    intros [H1 H2] [H1' H2']. split.
    - intros k. specialize (H1 k). specialize (H1' k). lia.
    - intros E. pose proof (H1 None). pose proof (H1' None).
      destruct H2 as (l & Hl & Cl); [lia|]. destruct H2' as (l' & Hl' & Cl'); [lia|].
      exists (l ++ l'). split; [rewrite map_app; now apply ev_add|]. intros k. rewrite count_occ_app, Cl, Cl'. lia.
  Qed.

  Lemma counts_entry v i (z : fam -> Z) : z None = 0 ->
    (forall u q, z (Some (u, q)) = if Z.eq_dec v u then if zlist_eqb q i then 1 else 0 else 0) ->
    counts_of (tat (dy v) i) z.
  Proof.
    intros E0 E. assert (E' : forall k, z (Some k) = Z.of_nat (count_occ entry_dec [(v, i)] k)).
    { intros [u q]. rewrite E. cbn [count_occ]. destruct (entry_dec (v, i) (u, q)) as [Ek|Ek].
      - inv Ek. destruct (Z.eq_dec u u); [|congruence]. rewrite (proj2 (zlist_eqb_eq q q) eq_refl). reflexivity.
      - destruct (Z.eq_dec v u) as [->|]; auto. destruct (zlist_eqb q i) eqn:Eq; auto.
        apply zlist_eqb_eq in Eq. congruence. }
    split.
    - intros [k|]; [rewrite E'; lia|lia].
    - intros _. exists [(v, i)]. split; [apply ev_num|]. auto.
  Qed.

  (** ** Operations *)
  Lemma read_rel t T sl : t_rel t T -> t_rel (read_slice t sl) (fun k => read_slice (T k) sl).
  Proof. intros [H1 H2]. split; cbn; auto. Qed.

  Lemma zero_rel t T sl : t_rel t T -> t_rel (zero_slice t sl) (fun k => zero_slice (T k) sl).
  Proof.
    intros [H1 H2]. split; cbn [zero_slice tshape tat]; auto. intros i. destruct (in_slice sl i); auto. apply counts_zero.
  Qed.

  Lemma write_rel t T m F sl : t_rel t T -> t_rel m F -> t_rel (write_slice t sl m) (fun k => write_slice (T k) sl (F k)).
  Proof.
    intros [H1 H2] [H3 H4]. unfold write_slice. destruct (zlist_eqb (tshape m) (compute_nd_slice_shape sl)) eqn:E.
    - split.
      + intros k. rewrite H3, E. cbn [tshape]. auto.
      + intros i. cbn [tat].
        assert (X : counts_of (if in_slice sl i then tat m (map2 (fun s k => k - fst s) sl i) else tat t i)
          (fun k => if in_slice sl i then tat (F k) (map2 (fun s k => k - fst s) sl i) else tat (T k) i)).
        { destruct (in_slice sl i); auto. }
        revert X. apply counts_ext. intros k. rewrite H3, E. reflexivity.
    - split.
      + intros k. rewrite H3, E. auto.
      + intros i. generalize (H2 i). apply counts_ext. intros k. rewrite H3, E. reflexivity.
  Qed.
  Lemma add_rel t T m F sl : t_rel t T -> t_rel m F -> t_rel (add_slice_by (m_add M) t sl m) (fun k => add_slice (T k) sl (F k)).
  Proof.
    intros [H1 H2] [H3 H4]. unfold add_slice_by, add_slice. destruct (zlist_eqb (tshape m) (compute_nd_slice_shape sl)) eqn:E.
    - split.
      + intros k. rewrite H3, E. cbn [tshape]. auto.
      + intros i. cbn [tat].
        assert (X : counts_of (if in_slice sl i then m_add M (tat t i) (tat m (map2 (fun s k => k - fst s) sl i)) else tat t i)
          (fun k => if in_slice sl i then tat (T k) i + tat (F k) (map2 (fun s k => k - fst s) sl i) else tat (T k) i)).
        { destruct (in_slice sl i); auto. now apply counts_add. }
        revert X. apply counts_ext. intros k. rewrite H3, E. reflexivity.
    - split.
      + intros k. rewrite H3, E. auto.
      + intros i. generalize (H2 i). apply counts_ext. intros k. rewrite H3, E. reflexivity.
  Qed.

  Lemma hist_rel l F t T : h_rel l F -> t_rel t T -> h_rel (l ++ [t]) (fun k => F k ++ [T k]).
  Proof.
    intros [H1 H2] Ht. split.
    - intros k. rewrite !app_length, H1. reflexivity.
    - intros n d D Hn. rewrite app_length in Hn. cbn [length] in Hn. destruct (Nat.eq_dec n (length l)) as [->|Hne].
      + rewrite app_nth2, Nat.sub_diag by lia. cbn [nth]. destruct Ht as [T1 T2].
        assert (E : forall k, nth (length l) (F k ++ [T k]) (D k) = T k).
        { intros k. rewrite app_nth2 by (rewrite H1; lia). now rewrite H1, Nat.sub_diag. }
        split; [intros k; now rewrite E|]. intros i. generalize (T2 i). apply counts_ext. intros k. now rewrite E.
      + assert (Hl : (n < length l)%nat) by lia. rewrite app_nth1 by auto. destruct (H2 n d D Hl) as [T1 T2].
        assert (E : forall k, nth n (F k ++ [T k]) (D k) = nth n (F k) (D k)).
        { intros k. rewrite app_nth1; auto. now rewrite H1. }
        split; [intros k; now rewrite E|]. intros i. generalize (T2 i). apply counts_ext. intros k. now rewrite E.
  Qed.

  (** ** The exchange of all counts together *)
  Section Family.
    Variable P : part.
    Variable shape : Z -> list Z.
    Variables recv send : Z -> list (Z * Z).

    Definition exchange_all (pack : (tensorZ -> @hst Zring -> @hst Zring) -> list slice -> @hst Zring -> @hst Zring)
        (unpack : list slice -> tensorZ -> tensorZ -> tensorZ) (lrecv rrecv lsend rsend : link) : list (@action S2 M2) :=
      [ ALocal (fun s k => if k_on lsend then pack set_l (k_sl lsend) (s k) else s k);
        ALocal (fun s k => if k_on rsend then pack set_r (k_sl rsend) (s k) else s k);
        (if k_on lrecv then ARecv (k_peer lrecv) (k_tag lrecv) (fun m s k => set_t (unpack (k_sl lrecv) (m k) (h_t (s k))) (s k)) else ANull);
        (if k_on rrecv then ARecv (k_peer rrecv) (k_tag rrecv) (fun m s k => set_t (unpack (k_sl rrecv) (m k) (h_t (s k))) (s k)) else ANull);
        (if k_on lsend then ASend (k_peer lsend) (k_tag lsend) (fun s k => h_l (s k)) else ANull);
        (if k_on rsend then ASend (k_peer rsend) (k_tag rsend) (fun s k => h_r (s k)) else ANull) ].

    Definition forward_all (i : nat) (v : Z) : list (@action S2 M2) :=
      if takes_part P v then
        let d := halo_dim P shape recv send v i in
        exchange_all fwd_pack fwd_unpack (fwd_lrecv d) (fwd_rrecv d) (fwd_lsend d) (fwd_rsend d)
      else [].
    Definition backward_all (i : nat) (v : Z) : list (@action S2 M2) :=
      if takes_part P v then
        let d := halo_dim P shape recv send v i in
        exchange_all bwd_pack bwd_unpack (bwd_lrecv d) (bwd_rrecv d) (bwd_lsend d) (bwd_rsend d)
      else [].
    Definition load_all (x : fam -> Z -> tensorZ) (v : Z) : list (@action S2 M2) :=
      [ALocal (fun s k => set_t (x k v) (s k))].
    Definition store_all (v : Z) : list (@action S2 M2) :=
      [ALocal (fun s k => mkhst (h_t (s k)) (h_l (s k)) (h_r (s k)) (h_hist (s k) ++ [h_t (s k)]))].

    (** The arguments of the counting calls. *)
    Definition junk (t : tensor R) (k : fam) : tensorZ := @mkt Zring (tshape t) (fun _ => match k with None => 1 | Some _ => 0 end).
    Definition one_entry (k : fam) (v : Z) : tensorZ :=
      @mkt Zring (tshape (dy v)) (fun i => match k with
                                    | None => 0
                                    | Some (u, q) => if Z.eq_dec v u then if zlist_eqb q i then 1 else 0 else 0
                                    end).
    Definition call_shapes (c : @call R) (k : fam) : @call Zring :=
      match c with
      | HForward x => HForward (fun v => junk (x v) k)
      | HBackward x => HBackward (fun v => junk (x v) k)
      end.
    Definition call_all (c : @call R) : list (@round S2 M2) :=
      let dim := length (p_shape P) in
      match c with
      | HForward x => [load_all (fun k v => junk (x v) k)] ++ map forward_all (seq 0 dim) ++ [store_all]
      | HBackward x => [load_all (fun k v => junk (x v) k)] ++ map backward_all (rev (seq 0 dim)) ++ [store_all]
      end.
    Definition history_all (pre : list (@call R)) : list (@round S2 M2) :=
      flat_map call_all pre ++ [load_all one_entry] ++ map backward_all (rev (seq 0 (length (p_shape P)))) ++ [store_all].
    Definition init_shapes (s : @hst R) (k : fam) : @hst Zring :=
      mkhst (junk (h_t s) k) (junk (h_l s) k) (junk (h_r s) k) (map (fun t => junk t k) (h_hist s)).

    Lemma junk_rel t : t_rel t (junk t).
    Proof.
      split; [reflexivity|]. intros i. apply counts_junk; [|reflexivity]. intros [k|]; cbn; lia.
    Qed.

    Lemma one_rel v : t_rel (dy v) (fun k => one_entry k v).
    Proof. split; [reflexivity|]. intros i. apply counts_entry; reflexivity. Qed.

    Lemma init_rel s : s_rel s (init_shapes s).
    Proof.
      constructor; cbn [init_shapes h_t h_l h_r h_hist]; try apply junk_rel. split.
      - intros k. now rewrite map_length.
      - intros n d D Hn.
        assert (E : forall k, nth n (map (fun t => junk t k) (h_hist s)) (D k) = junk (nth n (h_hist s) d) k).
        { intros k. rewrite (nth_indep _ (D k) (junk d k)) by (now rewrite map_length). now rewrite (map_nth (fun t => junk t k)). }
        destruct (junk_rel (nth n (h_hist s) d)) as [J1 J2].
        split; [intros k; now rewrite E|]. intros i. generalize (J2 i). apply counts_ext. intros k. now rewrite E.
    Qed.

    Notation rel1 := (act_rel s_rel t_rel).

    Lemma exchange_rel packR unpackR pack unpack :
      (forall sl s s2, s_rel s s2 -> s_rel (packR set_l sl s) (fun k => pack set_l sl (s2 k))) ->
      (forall sl s s2, s_rel s s2 -> s_rel (packR set_r sl s) (fun k => pack set_r sl (s2 k))) ->
      (forall sl m F t T, t_rel m F -> t_rel t T -> t_rel (unpackR sl m t) (fun k => unpack sl (F k) (T k))) ->
      forall a b c d, Forall2 rel1 (exchange packR unpackR a b c d) (exchange_all pack unpack a b c d).
    Proof.
      intros Hl Hr Hu a b c d. unfold exchange, exchange_all, local_if, recv_link, send_link.
      assert (U : forall sl m F s s2, t_rel m F -> s_rel s s2 ->
        s_rel (set_t (unpackR sl m (h_t s)) s) (fun k => set_t (unpack sl (F k) (h_t (s2 k))) (s2 k))).
      { intros sl m F s s2 Hm []. constructor; cbn [set_t h_t h_l h_r h_hist]; auto. }
      constructor; [|constructor; [|constructor; [|constructor; [|constructor; [|constructor; [|constructor]]]]]].
      - constructor. intros s s2 Hs. destruct (k_on c); auto.
      - constructor. intros s s2 Hs. destruct (k_on d); auto.
      - destruct (k_on a); constructor; auto.
      - destruct (k_on b); constructor; auto.
      - destruct (k_on c); constructor. intros s s2 []. auto.
      - destruct (k_on d); constructor. intros s s2 []. auto.
    Qed.

    Lemma forward_rel i v : Forall2 rel1 (forward_round P shape recv send i v) (forward_all i v).
    Proof.
      unfold forward_round, forward_all. destruct (takes_part P v); [|constructor]. apply exchange_rel.
      - intros sl s s2 []. constructor; cbn [fwd_pack set_l h_t h_l h_r h_hist]; auto. now apply (read_rel _ (fun k => h_t (s2 k))).
      - intros sl s s2 []. constructor; cbn [fwd_pack set_r h_t h_l h_r h_hist]; auto. now apply (read_rel _ (fun k => h_t (s2 k))).
      - intros sl m F t T Hm Ht. now apply write_rel.
    Qed.

    Lemma backward_rel i v : Forall2 rel1 (backward_round_by P shape recv send (m_add M) i v) (backward_all i v).
    Proof.
      unfold backward_round_by, backward_all. destruct (takes_part P v); [|constructor]. apply exchange_rel.
      - intros sl s s2 []. constructor; cbn [bwd_pack set_t set_l h_t h_l h_r h_hist]; auto.
        + now apply (zero_rel _ (fun k => h_t (s2 k))).
        + now apply (read_rel _ (fun k => h_t (s2 k))).
      - intros sl s s2 []. constructor; cbn [bwd_pack set_t set_r h_t h_l h_r h_hist]; auto.
        + now apply (zero_rel _ (fun k => h_t (s2 k))).
        + now apply (read_rel _ (fun k => h_t (s2 k))).
      - intros sl m F t T Hm Ht. now apply add_rel.
    Qed.

    Lemma load_rel (x : Z -> tensor R) (X : fam -> Z -> tensorZ) : (forall v, t_rel (x v) (fun k => X k v)) ->
      forall v, Forall2 rel1 (load_round x v) (load_all X v).
    Proof.
      intros HX v. constructor; [|constructor]. constructor. intros s s2 []. constructor; cbn [set_t h_t h_l h_r h_hist]; auto.
    Qed.

    Lemma store_rel v : Forall2 rel1 (store_round v) (store_all v).
    Proof.
      constructor; [|constructor]. constructor. intros s s2 []. constructor; cbn [h_t h_l h_r h_hist]; auto.
      now apply (hist_rel _ (fun k => h_hist (s2 k)) _ (fun k => h_t (s2 k))).
    Qed.

    Lemma F2_map {A B C} (r : B -> C -> Prop) (f : A -> B) (g : A -> C) l : (forall a, r (f a) (g a)) -> Forall2 r (map f l) (map g l).
    Proof. intros Hr. induction l; cbn; constructor; auto. Qed.

    Lemma history_rel pre :
      Forall2 (fun rd rd' => forall w, Forall2 rel1 (rd w) (rd' w))
        (history_rounds_by P shape recv send (m_add M) (pre ++ [HBackward dy])) (history_all pre).
    Proof.
      unfold history_rounds_by, history_all. rewrite flat_map_app. apply Forall2_app.
      - induction pre as [|c pre IH]; cbn [flat_map]; [constructor|]. apply Forall2_app; auto.
        destruct c as [x|x]; cbn [call_rounds_by call_all app]; constructor;
          try (apply load_rel; intros; apply junk_rel); apply Forall2_app;
          try (constructor; [intros; apply store_rel|constructor]).
        + apply F2_map. intros. apply forward_rel.
        + apply F2_map. intros. apply backward_rel.
      - cbn [flat_map call_rounds_by app]. constructor; [apply load_rel, one_rel|]. rewrite app_nil_r. apply Forall2_app.
        + apply F2_map. intros. apply backward_rel.
        + constructor; [intros; apply store_rel|constructor].
    Qed.

    (** ** One count *)
    Section One.
      Variable k : fam.
      Notation rel2 := (act_rel (fun (s2 : S2) (s : @hst Zring) => s2 k = s) (fun (m2 : M2) (m : tensorZ) => m2 k = m)).

      Lemma exchange_one pack unpack a b c d : Forall2 rel2 (exchange_all pack unpack a b c d) (exchange pack unpack a b c d).
      Proof.
        unfold exchange, exchange_all, local_if, recv_link, send_link.
        constructor; [|constructor; [|constructor; [|constructor; [|constructor; [|constructor; [|constructor]]]]]].
        - constructor. intros s2 s <-. reflexivity.
        - constructor. intros s2 s <-. reflexivity.
        - destruct (k_on a); constructor. intros m2 m s2 s <- <-. reflexivity.
        - destruct (k_on b); constructor. intros m2 m s2 s <- <-. reflexivity.
        - destruct (k_on c); constructor. intros s2 s <-. reflexivity.
        - destruct (k_on d); constructor. intros s2 s <-. reflexivity.
      Qed.

      Lemma history_one pre :
        Forall2 (fun rd rd' => forall w, Forall2 rel2 (rd w) (rd' w))
          (history_all pre) (history_rounds P shape recv send (map (fun c => call_shapes c k) pre ++ [HBackward (one_entry k)])).
      Proof.
        assert (Lo : forall X w, Forall2 rel2 (load_all X w) (load_round (X k) w)).
        { intros X w. constructor; [|constructor]. constructor. intros s2 s <-. reflexivity. }
        assert (St : forall w, Forall2 rel2 (store_all w) (store_round w)).
        { intros w. constructor; [|constructor]. constructor. intros s2 s <-. reflexivity. }
        assert (Fw : forall i w, Forall2 rel2 (forward_all i w) (forward_round P shape recv send i w)).
        { intros i w. unfold forward_all, forward_round. destruct (takes_part P w); [apply exchange_one|constructor]. }
        assert (Bw : forall i w, Forall2 rel2 (backward_all i w) (backward_round P shape recv send i w)).
        { intros i w. unfold backward_all, backward_round. destruct (takes_part P w); [apply exchange_one|constructor]. }
        unfold history_rounds, history_all. rewrite flat_map_app. apply Forall2_app.
        - induction pre as [|c pre IH]; cbn [map flat_map]; [constructor|]. apply Forall2_app; auto.
          destruct c as [x|x]; cbn [call_shapes call_rounds call_all app]; (constructor; [intros w; apply (Lo (fun k v => junk (x v) k))|]);
            apply Forall2_app; try (constructor; [apply St|constructor]).
          + now apply F2_map.
          + now apply F2_map.
        - cbn [flat_map call_rounds app]. constructor; [apply Lo|]. rewrite app_nil_r. apply Forall2_app.
          + now apply F2_map.
          + constructor; [apply St|constructor].
      Qed.
    End One.

    Lemma last_nth {A} (l : list A) d : last l d = nth (length l - 1) l d.
    Proof.
      induction l as [|a [|b l] IH]; auto. cbn [last length] in *. rewrite IH. cbn. now rewrite Nat.sub_0_r.
    Qed.

    (** Every execution has its counts. *)
    Lemma counted world pre init eager g :
      ends world (history_rounds_by P shape recv send (m_add M) (pre ++ [HBackward dy])) init eager g ->
      exists Rz : Z -> M2,
        (forall v, t_rel (halo_result g v) (Rz v)) /\
        forall k, exists gk,
          ends world (history_rounds P shape recv send (map (fun c => call_shapes c k) pre ++ [HBackward (one_entry k)]))
            (fun v => init_shapes (init v) k) eager gk /\
          forall v, halo_result gk v = Rz v k.
    Proof.
      intros He. destruct (ends_rel s_rel t_rel world _ _ init (fun v => init_shapes (init v)) eager g (history_rel pre)
        (fun v => init_rel (init v)) He) as (g2 & He2 & Hg2).
      exists (fun v k => last (h_hist (wdata (gw g2 v) k)) (mkt [] (fun _ => rzero))). split.
      - intros v. pose proof (wr_data _ _ _ _ (gr_w _ _ _ _ Hg2 v)) as [_ _ _ [H1 H2]]. unfold halo_result.
        destruct (h_hist (wdata (gw g v))) as [|t l] eqn:E.
        + assert (E2 : forall k, h_hist (wdata (gw g2 v) k) = []) by (intros k; apply length_zero_iff_nil; now rewrite H1).
          split; [intros k; now rewrite E2|]. intros i. generalize counts_zero. apply counts_ext. intros k. now rewrite E2.
        + assert (Hn : (length (t :: l) - 1 < length (t :: l))%nat) by (cbn [length]; lia).
          destruct (H2 _ (mkt [] (fun _ => rzero)) (fun _ => mkt [] (fun _ => rzero)) Hn) as [T1 T2].
          rewrite last_nth. split.
          * intros k. rewrite last_nth, H1. apply T1.
          * intros i. generalize (T2 i). apply counts_ext. intros k. rewrite last_nth, H1. reflexivity.
      - intros k. destruct (ends_rel _ _ world _ _ (fun v => init_shapes (init v)) (fun v => init_shapes (init v) k) eager g2 (history_one k pre)
          (fun v => eq_refl) He2) as (gk & Hk & Hgk).
        exists gk. split; auto. intros v. unfold halo_result. now rewrite (wr_data _ _ _ _ (gr_w _ _ _ _ Hgk v)).
    Qed.
  End Family.
End Count.

(** * Workers without requests *)

Section Local.
  Context {S0 M0 : Type}.
  Variables (workers : list Z) (prog : Z -> list (list (@action S0 M0))) (init : Z -> S0) (eager : Z -> Z -> Z -> nat -> bool).
  Variable v : Z.
  Hypothesis Hloc : forall r a, In a (code prog v r) -> exists f, a = ALocal f.

  Lemma local_run n g : run workers prog init eager n g ->
    wreqs (gw g v) = [] /\ (wround (gw g v) <= length (prog v))%nat /\
    wdata (gw g v) = acts_run (concat (firstn (wround (gw g v)) (prog v)) ++ firstn (wpos (gw g v)) (code prog v (wround (gw g v)))) (init v).
  Proof.
    intros Hr. induction Hr as [|n g h Hr (I1 & I2 & I3) Hs].
    - cbn. split; [auto|]. split; [lia|auto].
    - destruct Hs as [g w a Hw Ha|g w i q s Hw Hp Hc Hn Hq|g w Hw Hp Hc Hn|g w Hw Hl Hp Hc]; destruct (Z.eq_dec w v) as [->|Hne].
      + destruct (Hloc _ _ (nth_error_In _ _ Ha)) as [f ->]. cbn [exec gw]. rewrite set_w_same. cbn [wreqs wround wdata wpos].
        split; [auto|]. split; [auto|]. rewrite (firstn_S_snoc _ _ _ Ha), app_assoc, acts_run_app, <- I3. reflexivity.
      + assert (E : gw (exec g w a) v = gw g v) by (destruct a; cbn [exec gw]; apply set_w_other; auto). rewrite E. auto.
      + rewrite I1 in Hc. cbn in Hc. lia.
      + cbn [gw]. rewrite set_w_other by auto. auto.
      + rewrite I1 in Hc. cbn in Hc. lia.
      + cbn [gw]. rewrite set_w_other by auto. auto.
      + cbn [gw]. rewrite set_w_same. cbn [wreqs wround wdata wpos]. split; [auto|]. split; [lia|].
        rewrite I3, Hp, firstn_all, app_nil_r.
        assert (Ec : nth_error (prog v) (wround (gw g v)) = Some (code prog v (wround (gw g v)))) by (unfold code; now apply nth_error_nth').
        rewrite (firstn_S_snoc _ _ _ Ec), concat_app. cbn [concat]. now rewrite app_nil_r.
      + cbn [gw]. rewrite set_w_other by auto. auto.
  Qed.

  Lemma local_done n g : In v workers -> run workers prog init eager n g -> done workers prog g ->
    wdata (gw g v) = acts_run (concat (prog v)) (init v).
  Proof.
    intros Hv Hr Hd. destruct (local_run n g Hr) as (_ & _ & E). rewrite E, (Hd v Hv), firstn_all.
    unfold code. rewrite nth_overflow by lia. now rewrite firstn_nil, app_nil_r.
  Qed.
End Local.

(** * Blocks whose entries are sent to one neighbour only *)

Section Apart.
  Context {R : CRing}.
  Variable add : R -> R -> R.
  Variables (world : list Z) (P : part) (L : layout) (H : halos).
  Variables (shape : Z -> list Z) (recv send : Z -> list (Z * Z)).
  Hypothesis HG : halo_given world P L H.
  Hypothesis HPl : planned P L H shape recv send.

  Lemma add_by_proper (t t' : tensor R) sl m m' : steq t t' -> steq m m' -> steq (add_slice_by add t sl m) (add_slice_by add t' sl m').
  Proof.
    intros [H1 H2] [H3 H4]. unfold add_slice_by. rewrite H3. destruct (zlist_eqb _ _); [|now split].
    split; simpl; auto. intros p. rewrite H2, H4. now destruct (in_slice sl p).
  Qed.

  Lemma bulks_disjoint idx i p : halos_apart L H -> valid_index (p_shape P) idx -> (i < length L)%nat ->
    in_slice (local_slice L H (zone_lb L H) idx i) p = true -> in_slice (local_slice L H (zone_rb L H) idx i) p = true -> False.
  Proof.
    intros HA Hv Hi H1 H2. pose proof HG as (G1 & G2 & G3 & G4 & G5 & G6).
    pose proof (idx_length P L G5 idx Hv) as Hl. destruct (Nat.eq_dec (length p) (length L)) as [E|E].
    - rewrite in_local in H1, H2 by auto. apply zone_own in H1; auto. apply zone_own in H2; auto.
      cbn [zone_lb zone_rb fst snd] in *.
      apply Forall2_nth with (da := []) (db := []) in HA as [_ HA]. specialize (HA i Hi).
      pose proof (idx_bound P L G5 idx i Hv Hi) as Hb. rewrite (np_length P L G5 i Hi) in Hb.
      pose proof (ext_nonneg L G4 i (nth i idx 0)) as He.
      unfold ls, rs, hl, hr in *. fold (ext L i (nth i idx 0)) in *.
      destruct (Z.ltb_spec 0 (nth i idx 0)) as [H0|H0]; [|lia].
      destruct (Z_lt_dec (nth i idx 0 + 1) (Z.of_nat (length (nth i L [])))) as [Hn|Hn].
      + specialize (HA (nth i idx 0) H0 Hn). unfold ext in *. lia.
      + assert (E0 : fst (halo_at (nth i H []) (nth i idx 0 + 1)) = 0).
        { unfold halo_at. rewrite nth_overflow; auto. destruct (halos_nth L H G6 i Hi) as (Eh & _). rewrite Eh. lia. }
        lia.
    - rewrite bad_length in H1 by auto. discriminate.
  Qed.

  Lemma backward_by_ok i : halos_apart L H -> (i < length L)%nat -> round_ok world eqH steq (backward_round_by P shape recv send add i).
  Proof.
    intros HA Hi. pose proof HG as (G1 & G2 & G3 & G4 & G5 & G6).
    pose proof (given_shape P L H shape recv send HPl) as Q1.
    pose proof (given_recv P L H shape recv send HPl) as Q2.
    pose proof (given_send P L H shape recv send HPl) as Q3.
    destruct (pairs P L H G3 G5 G6 shape recv send Q1 Q2 Q3 world G2 i Hi) as (_ & _ & _ & _ & P1 & P2 & P3 & P4).
    apply (link_round_ok world bwd_pack (bwd_unpack_by add) (takes_part P) (fun v => bwd_lrecv (D P shape recv send i v))
      (fun v => bwd_rrecv (D P shape recv send i v)) (fun v => bwd_lsend (D P shape recv send i v)) (fun v => bwd_rsend (D P shape recv send i v))); auto.
    - intros sl s s' []. constructor; simpl; auto using read_proper, zero_proper.
    - intros sl s s' []. constructor; simpl; auto using read_proper, zero_proper.
    - intros. now apply add_by_proper.
    - intros v m m' t _ Ht. destruct (part_index P G3 v Ht) as (idx & Hv & ->).
      change (D P shape recv send i (wk P idx)) with (hd P shape recv send idx i). unfold bwd_lrecv, bwd_rrecv, bwd_unpack_by. cbn [k_sl].
      rewrite (slices_of P L H G3 G5 G6 shape recv send Q1 Q2 Q3 idx i Hv Hi). cbn [lbs rbs]. unfold add_slice_by.
      destruct (zlist_eqb (tshape m) _), (zlist_eqb (tshape m') _); try (split; reflexivity).
      split; cbn [tat tshape]; auto. intros p.
      destruct (in_slice (local_slice L H (zone_lb L H) idx i) p) eqn:E1; auto.
      destruct (in_slice (local_slice L H (zone_rb L H) idx i) p) eqn:E2; auto.
      exfalso. eapply bulks_disjoint; eauto.
  Qed.

  Lemma history_by_ok cs : halos_apart L H -> Forall (round_ok world eqH steq) (history_rounds_by P shape recv send add cs).
  Proof.
    intros HA. induction cs as [|c cs IH]; [constructor|]. cbn [history_rounds_by flat_map]. apply Forall_app. split; auto.
    assert (S1 : Forall (fun i => (i < length L)%nat) (seq 0 (length (p_shape P)))) by (exact (dims_ok world P L H HG)).
    destruct c as [x|dy]; cbn [call_rounds_by app]; constructor; auto using (load_ok (R := R) world).
    - apply Forall_app. split; [|constructor; [apply store_ok|constructor]]. apply Forall_forall. intros r Hr.
      apply in_map_iff in Hr as (i & <- & Hi). rewrite Forall_forall in S1.
      apply (halo_round_ok world P L H shape recv send HG HPl (forward_round P shape recv send) i); auto.
    - apply Forall_app. split; [|constructor; [apply store_ok|constructor]]. apply Forall_forall. intros r Hr.
      apply in_map_iff in Hr as (i & <- & Hi). apply in_rev in Hi. rewrite Forall_forall in S1. apply backward_by_ok; auto.
  Qed.

  Lemma apart_async cs init : halos_apart L H -> async_ok world eqH (history_rounds_by P shape recv send add cs) init.
  Proof.
    intros HA. destruct HG as (G1 & _). apply (rounds_async world eqH steq); auto using history_by_ok.
    - apply eqH_equiv.
    - exact _.
  Qed.
End Apart.
