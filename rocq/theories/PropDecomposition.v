(** Properties C03 and C05. *)

From Verif Require Import Prelude ModelSlicing ModelDecomposition SpecIndex SpecLayout
  ProofSlicing ProofDecomposition.

(** ** C03 *)

Definition C03_statement : Prop :=
  (* balanced shapes: same boxes as the per-worker formulas *)
  (forall P n w, pos_shape P -> nonneg_shape n -> length n = length P -> valid_index P w ->
     let shapes := compute_subtensor_shapes_balanced n P in
     shapes w = compute_subshape P w n /\
     compute_subtensor_start_indices (length P) shapes w = compute_start_index P w n /\
     compute_subtensor_stop_indices (length P) shapes w = compute_stop_index P w n) /\
  (* any assignment of extents to worker coordinates: the shapes gathered from
     the workers produce boxes that tile the assembled tensor *)
  (forall L : layout, layout_ok L ->
     let P := layout_workers L in
     let shapes := compute_subtensor_shapes_unbalanced P (block_shape L) in
     let start := compute_subtensor_start_indices (length P) shapes in
     let stop := compute_subtensor_stop_indices (length P) shapes in
     (forall g, valid_index (layout_shape L) g ->
        exists! w, valid_index P w /\ in_box (start w) (stop w) g) /\
     (forall w g, valid_index P w -> in_box (start w) (stop w) g ->
        valid_index (layout_shape L) g) /\
     (forall w, valid_index P w -> vsub (stop w) (start w) = block_shape L w) /\
     (* and the boxes are the ones given by the prefix sums of the extents *)
     (forall w, valid_index P w -> start w = block_lo L w /\ stop w = block_hi L w)).

Lemma unbalanced_len L w : layout_ok L -> length w = length L ->
  length (compute_subtensor_shapes_unbalanced (layout_workers L) (block_shape L) w) = length L.
Proof.
  intros HL Hw. unfold compute_subtensor_shapes_unbalanced. rewrite layout_workers_length.
  assert (G : forall l acc, length acc = length L ->
    Forall (fun i => length i = length L) l ->
    length (fold_left (fun acc idx => map2 Z.add acc
       (own_shape_array (length L) idx (block_shape L idx) w)) l acc) = length L).
  { induction l as [|x l IH]; intros acc Ha Hl; simpl; auto. inv Hl. apply IH; auto.
    rewrite map2_length; auto. unfold own_shape_array.
    destruct (zlist_eqb x w); [rewrite block_shape_length; auto|rewrite repeat_length; auto]. }
  apply G; [apply repeat_length|].
  apply Forall_forall. intros i Hi. apply in_range_index in Hi.
  apply valid_index_length in Hi. now rewrite layout_workers_length in Hi.
Qed.

Lemma C03_proof : C03_statement.
Proof.
  split.
  - intros P n w HP Hn HL Hw. cbv zeta.
    assert (HLn : length (balanced n P) = length P) by (unfold balanced; rewrite map2_length; lia).
    assert (HW : layout_workers (balanced n P) = P) by now apply balanced_workers.
    split; [now apply balanced_shapes_spec|].
    rewrite <- HLn at 1 2.
    rewrite layout_start, layout_stop; rewrite ?HW; auto using balanced_ok.
    + rewrite balanced_block_lo, balanced_block_hi; auto.
    + intros w' Hw'. rewrite HLn in *. now apply balanced_shapes_length.
    + intros w' Hw'. rewrite balanced_shapes_spec, balanced_block_shape; auto.
    + intros w' Hw'. rewrite HLn in *. now apply balanced_shapes_length.
    + intros w' Hw'. rewrite balanced_shapes_spec, balanced_block_shape; auto.
  - intros L HL. cbv zeta.
    assert (HB : forall w, valid_index (layout_workers L) w ->
      compute_subtensor_start_indices (length (layout_workers L))
        (compute_subtensor_shapes_unbalanced (layout_workers L) (block_shape L)) w = block_lo L w /\
      compute_subtensor_stop_indices (length (layout_workers L))
        (compute_subtensor_shapes_unbalanced (layout_workers L) (block_shape L)) w = block_hi L w).
    { intros w Hw. rewrite layout_workers_length.
      split; [apply layout_start|apply layout_stop]; auto;
        try (intros; now apply unbalanced_len);
        (intros w' Hw'; apply unbalanced_shapes_spec; auto;
         intros v Hv; apply valid_index_length in Hv; rewrite layout_workers_length in *;
         now apply block_shape_length). }
    split; [|split; [|split]]; auto.
    + intros g Hg. destruct (layout_tiles_exists L g HL Hg) as (w & Hw & Hb).
      exists w. split.
      * split; auto. destruct (HB w Hw) as [-> ->]. auto.
      * intros w' [Hw' Hb']. destruct (HB w' Hw') as [E1 E2]. rewrite E1, E2 in Hb'.
        eapply layout_tiles_unique; eauto.
    + intros w g Hw Hb. destruct (HB w Hw) as [E1 E2]. rewrite E1, E2 in Hb.
      eapply layout_tiles_inside; eauto.
    + intros w Hw. destruct (HB w Hw) as [-> ->].
      apply valid_index_length in Hw. rewrite layout_workers_length in Hw.
      rewrite block_hi_lo by auto. apply vadd_vsub.
      rewrite block_lo_length, block_shape_length; auto.
Qed.

Theorem C03_whole_partition_decomposition : C03_statement.
Proof. exact C03_proof. Qed.

Example C03_example :
  let L := [[2; 0; 5]; [4; 3]] in
  let shapes := compute_subtensor_shapes_unbalanced [3; 2] (block_shape L) in
  layout_ok L /\ layout_workers L = [3; 2] /\ layout_shape L = [7; 7] /\
  compute_subtensor_start_indices 2 shapes [2; 1] = [2; 4] /\
  compute_subtensor_stop_indices 2 shapes [2; 1] = [7; 7] /\
  compute_subtensor_start_indices 2 (compute_subtensor_shapes_balanced [7; 5] [3; 2]) [1; 1] = [3; 3].
Proof. vm_compute. repeat split; repeat constructor; discriminate. Qed.

Print Assumptions C03_whole_partition_decomposition.

(** ** C05 *)

(** The global points denoted by a slice relative to a tensor whose first
    element is at [base]. *)
Definition denotes (base : list Z) (sl : list (Z * Z)) (g : list Z) : Prop :=
  length sl = length base /\
  exists l, length l = length base /\ g = vadd base l /\
    forall k, (k < length base)%nat ->
      fst (nth k sl (0, 0)) <= nth k l 0 < snd (nth k sl (0, 0)).

Definition C05_agreement (f : list Z -> list Z -> list Z -> list Z -> option (list slice)) : Prop :=
  forall a_lo a_hi b_lo b_hi,
  length a_hi = length a_lo -> length b_lo = length a_lo -> length b_hi = length a_lo ->
  let common g := in_box a_lo a_hi g /\ in_box b_lo b_hi g in
  (f a_lo a_hi b_lo b_hi = None <-> ~ exists g, common g) /\
  (f b_lo b_hi a_lo a_hi = None <-> ~ exists g, common g) /\
  (forall sa sb, f a_lo a_hi b_lo b_hi = Some sa -> f b_lo b_hi a_lo a_hi = Some sb ->
     (forall g, denotes a_lo sa g <-> common g) /\
     (forall g, denotes b_lo sb g <-> common g) /\
     compute_nd_slice_shape sa = compute_nd_slice_shape sb /\
     compute_nd_slice_volume sa = compute_nd_slice_volume sb /\
     0 < compute_nd_slice_volume sa /\
     (* inside the local tensors *)
     Forall2 (fun s n => 0 <= fst s < snd s /\ snd s <= n) sa (vsub a_hi a_lo) /\
     Forall2 (fun s n => 0 <= fst s < snd s /\ snd s <= n) sb (vsub b_hi b_lo)).

Lemma denotes_slice_points base sl g : length sl = length base ->
  (denotes base sl g <-> slice_points base sl g).
Proof.
  unfold denotes, slice_points. revert sl g.
  induction base as [|a base IH]; intros [|s sl] g HL; try discriminate.
  - unfold vadd. simpl. rewrite in_box_nil. split.
    + intros (_ & l & Hl & -> & _). destruct l; auto.
    + intros ->. split; auto. exists []. repeat split; auto; intros; lia.
  - unfold vadd. simpl. split.
    + intros (_ & l & Hl & -> & H). destruct l as [|x l]; [discriminate|].
      simpl. apply in_box_cons. split.
      * specialize (H 0%nat). simpl in H. lia.
      * apply IH; [simpl in HL; lia|]. split; [simpl in HL; lia|]. exists l.
        repeat split; auto; try (simpl in Hl; lia); apply (H (S k)); lia.
    + intros H. apply in_box_cons_inv in H as (x & t & -> & Hx & Ht).
      apply IH in Ht; [|simpl in HL; lia]. destruct Ht as (HL' & l & Hl & -> & H).
      split; [simpl; lia|]. exists (x - a :: l). split; [simpl; lia|]. split.
      * simpl. f_equal. lia.
      * intros [|k] Hk; simpl; [lia|]. apply H. lia.
Qed.

Lemma slice_inside sl hi lo : length hi = length lo -> length sl = length lo ->
  Forall (fun n => 0 < n) (compute_nd_slice_shape sl) ->
  (forall k, (k < length lo)%nat -> 0 <= nth k (map fst sl) 0 /\
     nth k (map snd sl) 0 <= nth k hi 0 - nth k lo 0) ->
  Forall2 (fun s n => 0 <= fst s < snd s /\ snd s <= n) sl (vsub hi lo).
Proof.
  revert sl hi. induction lo as [|a lo IH]; intros [|s sl] [|b hi] H1 H2 HF HB; try discriminate.
  - constructor.
  - unfold vsub. simpl. unfold compute_nd_slice_shape in HF. simpl in HF. inv HF.
    constructor.
    + specialize (HB 0%nat). simpl in HB. lia.
    + apply IH; auto. intros k Hk. apply (HB (S k)). simpl. lia.
Qed.

Lemma overlap_core_agreement : C05_agreement overlap_core.
Proof.
  intros a_lo a_hi b_lo b_hi H1 H2 H3. cbv zeta.
  split; [now apply overlap_core_none|].
  split. { rewrite overlap_core_none by congruence.
    split; intros H (g & Ha & Hb); apply H; exists g; auto. }
  intros sa sb Ha Hb.
  apply overlap_core_points in Ha as (La & Pa & Sa & Fa & Ra); auto.
  apply overlap_core_points in Hb as (Lb & Pb & Sb & Fb & Rb); try congruence.
  split. { intros g. rewrite denotes_slice_points by auto. apply Pa. }
  split. { intros g. rewrite denotes_slice_points by auto. rewrite Pb. tauto. }
  assert (E : compute_nd_slice_shape sa = compute_nd_slice_shape sb)
    by (rewrite Sa, Sb; apply isub_sym).
  split; auto.
  split. { unfold compute_nd_slice_volume. unfold compute_nd_slice_shape in E. congruence. }
  split. { unfold compute_nd_slice_volume. apply zprod_pos. auto. }
  split; apply slice_inside; auto; congruence.
Qed.

(** Both code paths, for arbitrary boxes. *)
Definition C05_statement : Prop :=
  C05_agreement compute_subtensor_intersection_slice /\
  (* workers of any two partitions of any tensor, per-worker formulas *)
  (forall P i Q j n, length i = length P -> length n = length P ->
     length Q = length P -> length j = length P ->
     let a_lo := compute_start_index P i n in let a_hi := compute_stop_index P i n in
     let b_lo := compute_start_index Q j n in let b_hi := compute_stop_index Q j n in
     let common g := in_box a_lo a_hi g /\ in_box b_lo b_hi g in
     (compute_partition_intersection P i Q j n = None <-> ~ exists g, common g) /\
     (compute_partition_intersection Q j P i n = None <-> ~ exists g, common g) /\
     (forall sa sb, compute_partition_intersection P i Q j n = Some sa ->
        compute_partition_intersection Q j P i n = Some sb ->
        (forall g, denotes a_lo sa g <-> common g) /\
        (forall g, denotes b_lo sb g <-> common g) /\
        compute_nd_slice_shape sa = compute_nd_slice_shape sb /\
        compute_nd_slice_volume sa = compute_nd_slice_volume sb /\
        0 < compute_nd_slice_volume sa /\
        Forall2 (fun s m => 0 <= fst s < snd s /\ snd s <= m) sa (compute_subshape P i n) /\
        Forall2 (fun s m => 0 <= fst s < snd s /\ snd s <= m) sb (compute_subshape Q j n))).

Lemma C05_proof : C05_statement.
Proof.
  split; [exact overlap_core_agreement|].
  intros P i Q j n H1 H2 H3 H4. cbv zeta.
  pose proof (overlap_core_agreement (compute_start_index P i n) (compute_stop_index P i n)
    (compute_start_index Q j n) (compute_stop_index Q j n)) as H.
  rewrite !compute_stop_length, !compute_start_length in H by congruence.
  specialize (H eq_refl H3 H3). cbv zeta in H.
  rewrite !stop_minus_start in H by congruence. exact H.
Qed.

Theorem C05_overlap_agreement : C05_statement.
Proof. exact C05_proof. Qed.

Example C05_example :
  compute_partition_intersection [3] [1] [2] [0] [10] = Some [(0, 1)] /\
  compute_partition_intersection [2] [0] [3] [1] [10] = Some [(4, 5)] /\
  compute_partition_intersection [3] [2] [2] [0] [10] = None /\
  compute_subtensor_intersection_slice [2; 3] [6; 9] [4; 0] [9; 5] = Some [(2, 4); (0, 2)] /\
  compute_subtensor_intersection_slice [4; 0] [9; 5] [2; 3] [6; 9] = Some [(0, 2); (3, 5)].
Proof. vm_compute. repeat split. Qed.

Print Assumptions C05_overlap_agreement.
