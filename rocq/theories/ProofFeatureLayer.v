(** Proofs about sliding-window layers. *)

From Verif Require Import Prelude SpecIndex SpecLayout SpecPartition SpecHalo ModelSlicing ModelDecomposition
  ModelPartition ProofSlicing ProofDecomposition ProofPartition Ring Tensor ModelCollectives PropExchange ModelUtilities
  PropUtilities Blocks P2P Rounds ModelRepartition ProofRepartition ModelHaloMixin ProofHaloMixin PropHaloMixin
  ModelHaloExchange ModelFeatureLayer SpecFeature.

(** * One dimension *)

Lemma balanced1_prefix_nat n P i : 0 < P -> (i <= Z.to_nat P)%nat -> zsum (firstn i (balanced1 n P)) = start1 P (Z.of_nat i) n.
Proof.
  intros HP. induction i as [|i IH]; intros Hi.
  - cbn [firstn zsum fold_right]. now rewrite start1_0 by lia.
  - rewrite zsum_firstn_S, IH by lia. rewrite Nat2Z.inj_succ, <- Z.add_1_r, start1_step by lia.
    f_equal. rewrite <- (Nat2Z.id i) at 1. apply balanced1_nth. lia.
Qed.

Lemma pad1_length e p : length (pad1 e p) = length e.
Proof. unfold pad1. rewrite map_length, zrange_length. lia. Qed.

Lemma pad1_nth e p i : (i < length e)%nat ->
  nth i (pad1 e p) 0 = nth i e 0 + (if Nat.eqb i 0 then p else 0) + (if Nat.eqb (S i) (length e) then p else 0).
Proof.
  intros Hi. unfold pad1. erewrite nth_error_nth; [reflexivity|].
  erewrite map_nth_error; [|apply zrange_nth_error; lia]. rewrite Nat2Z.id. f_equal. f_equal.
  - destruct (Nat.eqb_spec i 0), (Z.eqb_spec (Z.of_nat i) 0); auto; lia.
  - destruct (Nat.eqb_spec (S i) (length e)), (Z.eqb_spec (Z.of_nat i) (Z.of_nat (length e) - 1)); auto; lia.
Qed.

Lemma pad1_prefix e p i : (i <= length e)%nat ->
  zsum (firstn i (pad1 e p)) = zsum (firstn i e) + (if Nat.eqb i 0 then 0 else p) +
    (if Nat.eqb i (length e) && negb (Nat.eqb i 0) then p else 0).
Proof.
  induction i as [|i IH]; intros Hi; [cbn; rewrite andb_false_r; reflexivity|].
  rewrite !zsum_firstn_S, IH, pad1_nth by lia.
  destruct (Nat.eqb_spec i (length e)); [lia|].
  destruct (Nat.eqb_spec i 0), (Nat.eqb_spec (S i) (length e)); change (Nat.eqb (S i) 0) with false; cbn [andb negb]; lia.
Qed.

Lemma pad1_sum e p : e <> [] -> zsum (pad1 e p) = zsum e + 2 * p.
Proof.
  intros He. pose proof (pad1_prefix e p (length e) (le_n _)) as H.
  rewrite firstn_all in H. rewrite <- (pad1_length e p) in H at 1. rewrite firstn_all in H. rewrite H.
  rewrite Nat.eqb_refl. destruct (Nat.eqb_spec (length e) 0); [destruct e; [congruence|discriminate]|].
  cbn [andb negb]. lia.
Qed.

Lemma pad1_nonneg e p : 0 <= p -> Forall (fun n => 0 <= n) e -> Forall (fun n => 0 <= n) (pad1 e p).
Proof.
  intros Hp He. apply Forall_nth. intros i d Hi. rewrite pad1_length in Hi.
  rewrite (nth_indep _ d 0) by (now rewrite pad1_length). rewrite pad1_nth by auto.
  rewrite Forall_nth in He. specialize (He i 0 Hi).
  destruct (Nat.eqb i 0), (Nat.eqb (S i) (length e)); lia.
Qed.

(** The facts used about one dimension, for the block [i] of the padded input. *)
Section Dim.
  Variables (e : list Z) (ny k s d : Z) (i : nat).
  Hypothesis Hi : (i < length e)%nat.
  Hypothesis He : Forall (fun n => 0 <= n) e.
  Hypothesis Hk : 0 < k.
  Hypothesis Hs : 0 < s.
  Hypothesis Hd : 0 < d.
  Hypothesis Hny : 0 < ny.
  Hypothesis Hout : out_extent (zsum e) k s 0 d = ny.
  Hypothesis HW : dim_within e ny k s d.

  Let P := Z.of_nat (length e).
  Let I := Z.of_nat i.
  Let ylo := start1 P I ny.
  Let yn := subshape1 P I ny.
  Let lo := dim_lo e I.
  Let hi := lo + nth i e 0.

  Lemma dim_facts :
    0 < yn /\ hi <= s * (ylo + yn) + d * (k - 1) /\
    halo_left e k s 0 d I = lo - s * ylo /\
    halo_right e k s 0 d I = s * (ylo + yn - 1) + d * (k - 1) + 1 - hi /\
    0 <= ylo /\ ylo + yn <= ny /\ 0 <= lo /\ 0 <= nth i e 0.
  Proof.
    specialize (HW i Hi). cbv zeta in HW. destruct HW as (H1 & H2 & H3 & H4).
    rewrite !balanced1_prefix_nat in H1 by (unfold P; lia). rewrite !balanced1_prefix_nat in H2 by (unfold P; lia).
    rewrite Nat2Z.inj_succ, <- Z.add_1_r in H1, H2. rewrite start1_step in H1, H2 by (unfold P; lia).
    fold P in H1, H2. fold I in H1, H2. fold ylo yn in H1, H2. rewrite zsum_firstn_S in H2.
    assert (Elo : zsum (firstn i e) = lo) by (unfold lo, dim_lo, I; now rewrite Nat2Z.id). rewrite Elo in H2. fold hi in H2.
    assert (B1 : 0 <= ylo) by (rewrite <- (start1_0 P ny) by (unfold P; lia); apply start1_mono; unfold P, I; lia).
    assert (B2 : ylo + yn <= ny).
    { unfold ylo, yn. rewrite <- start1_step by (unfold P, I; lia). rewrite <- (start1_P P ny) at 2 by (unfold P; lia).
      apply start1_mono; unfold P, I; lia. }
    assert (B3 : 0 <= lo) by (apply dim_lo_bound; auto).
    assert (B4 : 0 <= nth i e 0) by (rewrite Forall_nth in He; now apply He).
    repeat split; try lia.
    - unfold halo_left, need_left. fold P. rewrite Hout. fold ylo. fold lo.
      assert (0 <= s * ylo) by (apply Z.mul_nonneg_nonneg; lia). lia.
    - unfold halo_right, need_right. fold P. rewrite Hout. fold ylo yn. fold lo.
      replace (nth (Z.to_nat I) e 0) with (nth i e 0) by (unfold I; now rewrite Nat2Z.id). fold hi.
      assert (window_fits (zsum e) k s 0 d (ylo + yn - 1)) as F.
      { apply out_extent_count; [lia|lia|]. rewrite Hout. lia. }
      unfold window_fits in F. lia.
  Qed.

  (** The local tensor handed to the torch layer has exactly the worker's outputs. *)
  Lemma local_outputs m :
    m = Z.max hi (s * (ylo + yn - 1) + d * (k - 1) + 1) - s * ylo -> out_extent m k s 0 d = yn.
  Proof.
    intros ->. destruct dim_facts as (H1 & H2 & _ & _ & H5 & _). apply out_extent_window; auto.
    split; [lia|]. intros o Ho. unfold window_fits. rewrite Z.mul_sub_distr_l, !Z.mul_add_distr_l in *. split; intros H.
    - assert (s * o <= s * (yn - 1)) by (apply Z.mul_le_mono_nonneg_l; lia). lia.
    - destruct (Z_lt_ge_dec o yn) as [|Hge]; auto. exfalso.
      assert (s * yn <= s * o) by (apply Z.mul_le_mono_nonneg_l; lia). lia.
  Qed.
End Dim.

Lemma dim_narrow_within e ny k s d : Forall (fun n => 0 <= n) e -> 0 < k -> 0 < s -> 0 < d -> 0 < ny ->
  out_extent (zsum e) k s 0 d = ny -> dim_within e ny k s d -> dim_narrow e (dim_halos e k s 0 d).
Proof.
  intros He Hk Hs Hd Hny Hout HW i Hi Hi1.
  rewrite !dim_halos_at by lia. cbn [fst snd].
  assert (L1 : (S (Z.to_nat i) < length e)%nat) by lia.
  assert (L0 : (Z.to_nat i < length e)%nat) by lia.
  destruct (dim_facts e ny k s d (Z.to_nat i) L0 He Hs Hny Hout HW) as (_ & _ & _ & A & _ & _ & _ & A').
  destruct (dim_facts e ny k s d (S (Z.to_nat i)) L1 He Hs Hny Hout HW) as (_ & _ & B & _ & _ & _ & _ & B').
  replace (Z.of_nat (S (Z.to_nat i))) with (i + 1) in B by lia.
  rewrite Z2Nat.id in A by lia. rewrite A, B.
  replace (Z.to_nat (i + 1)) with (S (Z.to_nat i)) by lia.
  pose proof (HW _ L0) as (_ & _ & _ & C). specialize (C L1).
  pose proof (HW _ L1) as (_ & _ & D & _). specialize (D ltac:(lia)).
  rewrite Nat.sub_succ, Nat.sub_0_r in D.
  rewrite balanced1_prefix_nat in C, D by lia. rewrite zsum_firstn_S in C.
  rewrite Nat2Z.inj_succ, Z2Nat.id, <- Z.add_1_r in C, D by lia. rewrite start1_step in C by lia.
  unfold dim_lo. rewrite (Z2Nat.inj_add i 1), Nat.add_1_r by lia. split; lia.
Qed.

(** * All dimensions *)

Definition pad_layout (L : layout) (gp : list Z) : layout := map2 pad1 L gp.
Definition unpadded (w : window) : window := mkwindow (w_kernel w) (w_stride w) (repeat 0 (nf w)) (w_dilation w).

(** The halos of a sliding-window layer: those of the padded tensor. *)
Definition feature_halos (L : layout) (w : window) : halos :=
  layer_halos (pad_layout L (0 :: 0 :: w_padding w)) (full_window (length L) (unpadded w)).

Lemma inside_spec sh g : inside sh g = true <-> valid_index sh g.
Proof.
  unfold inside, valid_index. rewrite andb_true_iff, Nat.eqb_eq. revert g. induction sh as [|a sh IH]; intros [|b g].
  - split; [constructor|auto].
  - split; [intros [E _]; discriminate|intros F; inversion F].
  - split; [intros [E _]; discriminate|intros F; inversion F].
  - cbn [length combine forallb fst snd]. split.
    + intros [E F]. apply andb_true_iff in F as [F1 F2]. constructor; [breflect; lia|]. apply IH. split; [lia|auto].
    + intros F. inversion F as [|? ? ? ? Hb Ht]; subst. apply IH in Ht as [E F']. split; [lia|]. rewrite F', andb_true_r. breflect. lia.
Qed.

Lemma padded_test sh g : length g = length sh ->
  forallb (fun b => b) (map2 (fun k n => (0 <=? k) && (k <? n)) g sh) = inside sh g.
Proof.
  revert g. induction sh as [|a sh IH]; intros [|b g] E; try discriminate; [reflexivity|].
  cbn [map2 forallb]. rewrite IH by (now injection E). unfold inside. cbn [length combine forallb fst snd Nat.eqb].
  injection E as E. rewrite E, Nat.eqb_refl. reflexivity.
Qed.

Section Layer.
  Variables (P : part) (L : layout) (w : window) (ny : list Z) (shape : Z -> list Z).
  Hypothesis HP : part_ok P.
  Hypothesis HL : layout_ok L.
  Hypothesis HW : layout_workers L = p_shape P.
  Hypothesis HD : length L = S (S (nf w)).
  Hypothesis Hw : window_ok (nf w) w.
  Hypothesis Hc : counts (layout_shape L) (full_window (length L) w) ny.
  Hypothesis Hny : Forall (fun n => 0 < n) ny.
  Hypothesis Hin : within L w ny.
  Hypothesis HS : forall v idx, worker_at P idx v -> shape v = block_shape L idx.

  Let gp := 0 :: 0 :: w_padding w.
  Let Lp := pad_layout L gp.
  Let fw := full_window (length L) (unpadded w).
  Let H := feature_halos L w.

  Lemma fill2 c l : length l = nf w -> fill_left (length L) c l = c :: c :: l.
  Proof. intros E. unfold fill_left. rewrite E, HD. replace (S (S (nf w)) - nf w)%nat with 2%nat by lia. reflexivity. Qed.

  Lemma fw_eq : fw = mkwindow (1 :: 1 :: w_kernel w) (1 :: 1 :: w_stride w) (repeat 0 (length L)) (1 :: 1 :: w_dilation w).
  Proof.
    destruct Hw as (H1 & H2 & H3 & H4 & _). unfold fw, full_window, unpadded. cbn [w_kernel w_stride w_padding w_dilation].
    rewrite !fill2 by (auto; now rewrite repeat_length). rewrite HD. reflexivity.
  Qed.

  Lemma full_eq : full_window (length L) w = mkwindow (1 :: 1 :: w_kernel w) (1 :: 1 :: w_stride w) gp (1 :: 1 :: w_dilation w).
  Proof.
    destruct Hw as (H1 & H2 & H3 & H4 & _). unfold full_window. now rewrite !fill2 by auto.
  Qed.

  Lemma gp_length : length gp = length L.
  Proof. destruct Hw as (_ & _ & H3 & _). rewrite HD. cbn. now rewrite H3. Qed.

  Lemma gp_nonneg j : 0 <= nth j gp 0.
  Proof.
    destruct Hw as (_ & _ & _ & _ & _ & _ & F & _). unfold gp. apply nth_nonneg. repeat (constructor; [lia|]). exact F.
  Qed.

  Lemma Lp_length : length Lp = length L.
  Proof. unfold Lp, pad_layout. rewrite map2_length; auto. now rewrite gp_length. Qed.

  Lemma Lp_nth j : (j < length L)%nat -> nth j Lp [] = pad1 (nth j L []) (nth j gp 0).
  Proof.
    intros Hj. unfold Lp, pad_layout. rewrite map2_nth with (da := []) (db := 0); auto. now rewrite gp_length.
  Qed.

  Lemma Lp_workers : layout_workers Lp = p_shape P.
  Proof.
    rewrite <- HW. apply list_eq_nth with (d := 0).
    - now rewrite !layout_workers_length, Lp_length.
    - intros j Hj. rewrite layout_workers_length, Lp_length in Hj.
      rewrite !workers_nth by (now rewrite ?Lp_length). rewrite Lp_nth by auto. now rewrite pad1_length.
  Qed.

  Lemma L_pos : pos_shape (layout_workers L).
  Proof. rewrite HW. apply HP. Qed.

  Lemma L_nonempty j : (j < length L)%nat -> (0 < length (nth j L []))%nat.
  Proof.
    intros Hj. pose proof L_pos as Hp. unfold pos_shape in Hp. rewrite Forall_forall in Hp.
    specialize (Hp (nth j (layout_workers L) 0)). rewrite workers_nth in Hp by auto.
    enough (0 < Z.of_nat (length (nth j L []))) by lia. apply Hp. rewrite <- workers_nth by auto. apply nth_In.
    now rewrite layout_workers_length.
  Qed.

  Lemma Lp_shape : map2 (fun n p => n + 2 * p) (layout_shape L) gp = layout_shape Lp.
  Proof.
    apply list_eq_nth with (d := 0).
    - rewrite map2_length; rewrite !layout_shape_length; [now rewrite Lp_length|now rewrite gp_length].
    - intros j Hj. rewrite map2_length in Hj by (rewrite layout_shape_length, gp_length; auto).
      rewrite layout_shape_length in Hj.
      rewrite map2_nth with (da := 0) (db := 0) by (rewrite ?layout_shape_length, ?gp_length; auto).
      rewrite !xshape_nth, Lp_nth by auto. rewrite pad1_sum; auto.
      intros E. pose proof (L_nonempty j Hj). rewrite E in *. simpl in *. lia.
  Qed.

  Lemma Lp_ok : layout_ok Lp.
  Proof.
    apply Forall_nth. intros j d Hj. rewrite Lp_length in Hj. rewrite (nth_indep _ d []) by (now rewrite Lp_length).
    rewrite Lp_nth by auto. apply pad1_nonneg; [apply gp_nonneg|]. now apply ext_nth.
  Qed.

  Lemma padding_nth idx j : (j < length L)%nat ->
    nth j (compute_local_padding (p_shape P) idx gp) (0, 0) =
    (if nth j idx 0 =? 0 then nth j gp 0 else 0,
     if nth j idx 0 =? Z.of_nat (length (nth j L [])) - 1 then nth j gp 0 else 0).
  Proof.
    intros Hj. assert (length (p_shape P) = length L) by (rewrite <- HW; apply layout_workers_length).
    unfold compute_local_padding. rewrite vec_nth by lia. rewrite <- HW, workers_nth by auto. reflexivity.
  Qed.

  Lemma padding_length idx : length (compute_local_padding (p_shape P) idx gp) = length L.
  Proof. unfold compute_local_padding. rewrite vec_length. rewrite <- HW. apply layout_workers_length. Qed.

  Lemma Lp_block idx : valid_index (p_shape P) idx ->
    shape_after_pad (block_shape L idx) (compute_local_padding (p_shape P) idx gp) = block_shape Lp idx.
  Proof.
    intros Hi. assert (Hl : length idx = length L).
    { rewrite <- HW in Hi. now apply valid_length in Hi. }
    apply list_eq_nth with (d := 0).
    - unfold shape_after_pad. rewrite map2_length; rewrite !block_shape_length; rewrite ?Lp_length; auto.
      now rewrite padding_length.
    - intros j Hj. unfold shape_after_pad in *.
      rewrite map2_length in Hj by (rewrite block_shape_length, padding_length; auto).
      rewrite block_shape_length in Hj by auto.
      rewrite map2_nth with (da := 0) (db := (0, 0)) by (rewrite ?block_shape_length, ?padding_length; auto).
      rewrite padding_nth by auto. rewrite !block_shape_nth by (rewrite ?Lp_length; auto). rewrite Lp_nth by auto.
      rewrite <- HW in Hi. pose proof (valid_nth L idx j Hi Hj) as Hb. rewrite pad1_nth by lia. cbn [fst snd].
      destruct (Z.eqb_spec (nth j idx 0) 0), (Nat.eqb_spec (Z.to_nat (nth j idx 0)) 0); try lia;
      destruct (Z.eqb_spec (nth j idx 0) (Z.of_nat (length (nth j L [])) - 1)),
        (Nat.eqb_spec (S (Z.to_nat (nth j idx 0))) (length (nth j L []))); lia.
  Qed.

  Lemma fw_window : window_ok (length Lp) fw.
  Proof.
    rewrite Lp_length. destruct Hw as (H1 & H2 & H3 & H4 & F1 & F2 & F3 & F4). rewrite fw_eq.
    unfold window_ok. cbn [w_kernel w_stride w_padding w_dilation length]. rewrite H1, H2, H4, repeat_length, HD.
    assert (one : 0 < 1) by lia.
    split; [auto|]. split; [auto|]. split; [auto|]. split; [auto|].
    split; [auto|]. split; [auto|]. split; [|auto].
    apply Forall_forall. intros z Hz. apply repeat_spec in Hz. lia.
  Qed.

  Definition signed_halos idx : list (Z * Z) :=
    vec (length L) (fun j =>
      let f h := h (nth j Lp []) (nth j (w_kernel fw) 0) (nth j (w_stride fw) 0) 0 (nth j (w_dilation fw) 0) (nth j idx 0) in
      (f halo_left, f halo_right)).

  Lemma fw_padding j : nth j (w_padding fw) 0 = 0.
  Proof. rewrite fw_eq. cbn [w_padding]. destruct (nth_in_or_default j (repeat 0 (length L)) 0) as [Hr|Hr]; auto. now apply repeat_spec in Hr. Qed.

  Lemma setup_ok idx v : worker_at P idx v ->
    feature_setup P w shape v =
    Ok (Some (mkfsetup (compute_local_padding (p_shape P) idx gp) (recv_plan H idx) (recv_plan H idx) (send_plan H idx)
                (compute_needed_ranges (block_shape Lp idx) (signed_halos idx)))).
  Proof.
    intros Hv. pose proof (proj1 Hv) as Hi. assert (Hps : length (p_shape P) = length L) by (rewrite <- HW; apply layout_workers_length).
    destruct Hw as (H1 & H2 & H3 & H4 & _).
    unfold feature_setup. rewrite (proj2 (index_in_spec P v idx HP) Hv).
    rewrite np_pad_left_ok by lia. cbn [rbind]. rewrite Hps, fill2 by auto. fold gp.
    rewrite (assemble_layout P shape L v idx HP HL HW HS Hv). cbn [rbind]. rewrite Lp_shape.
    match goal with |- context [Some (compute_subtensor_shapes_unbalanced ?a ?b)] => set (shapes := compute_subtensor_shapes_unbalanced a b) end.
    assert (Hd : describes (Some shapes) Lp).
    { intros i Hi'. rewrite Lp_workers in Hi'. unfold shapes.
      assert (E : forall i, valid_index (p_shape P) i ->
        shape_after_pad (shape (nth (Z.to_nat (cartesian_index_c (p_shape P) i)) (p_ranks P) 0))
          (compute_local_padding (p_shape P) i gp) = block_shape Lp i).
      { intros i' Hi''. destruct (worker_exists P i' HP Hi'') as [u Hu].
        rewrite cartesian_index_c_row_major by (now apply valid_index_length in Hi'' || auto). destruct Hu as [Hu1 Hu2]. rewrite (nth_error_nth _ _ _ Hu2).
        rewrite (HS u i') by (split; auto). now apply Lp_block. }
      rewrite unbalanced_shapes_spec; auto. intros i' Hi''. rewrite E by auto. rewrite block_shape_length; [now rewrite Lp_length|].
      rewrite Lp_length. apply valid_index_length in Hi''. lia. }
    fold (unpadded w).
    rewrite exchange_info_full.
    - rewrite layout_shape_length, Lp_length. fold fw.
      pose proof Hi as Hi2. rewrite <- Lp_workers in Hi2. assert (Hpp : pos_shape (layout_workers Lp)) by (rewrite Lp_workers; apply HP).
      pose proof (exchange_info_plan Lp fw (Some shapes) Hpp Hd idx fw_window Hi2) as E. rewrite Lp_workers in E.
      rewrite E. cbn [rbind e_halo e_recv e_send e_needed]. do 3 f_equal. unfold H, feature_halos. fold gp Lp fw. f_equal. f_equal.
      apply list_eq_nth with (d := (0, 0)).
      + rewrite <- Lp_workers, compute_halo_shape_length. unfold signed_halos. rewrite vec_length. apply Lp_length.
      + intros j Hj. rewrite <- Lp_workers, compute_halo_shape_length, Lp_length in Hj. rewrite <- Lp_workers.
        rewrite compute_halo_shape_nth by (auto; now rewrite Lp_length).
        unfold signed_halos. rewrite vec_nth by auto. now rewrite fw_padding.
    - rewrite layout_shape_length, Lp_length. unfold unpadded, window_short. cbn [w_kernel w_stride w_padding w_dilation].
      rewrite repeat_length, H1, H2, H4, HD. repeat split; lia.
  Qed.

  (** ** One worker in one dimension *)

  Let k j := nth j (w_kernel fw) 0.
  Let s j := nth j (w_stride fw) 0.
  Let d j := nth j (w_dilation fw) 0.

  Lemma param_pos j : (j < length L)%nat -> 0 < k j /\ 0 < s j /\ 0 < d j.
  Proof.
    intros Hj. destruct (window_nth _ _ j fw_window) as (A & B & _ & C); [now rewrite Lp_length|]. auto.
  Qed.

  Lemma ny_dim j : (j < length L)%nat -> 0 < nth j ny 0 /\ out_extent (zsum (nth j Lp [])) (k j) (s j) 0 (d j) = nth j ny 0.
  Proof.
    intros Hj. destruct (param_pos j Hj) as (Ak & As & Ad). destruct Hc as [El Cj]. rewrite layout_shape_length in El, Cj.
    assert (Hp : 0 < nth j ny 0) by (rewrite Forall_forall in Hny; apply Hny, nth_In; lia). split; auto.
    apply out_extent_window; auto. specialize (Cj j Hj). rewrite xshape_nth, full_eq in Cj.
    unfold k, s, d in *. rewrite fw_eq in *. cbn [w_kernel w_stride w_padding w_dilation] in *.
    rewrite Lp_nth, pad1_sum by (auto; intros E; pose proof (L_nonempty j Hj); rewrite E in *; simpl in *; lia).
    destruct Cj as [C1 C2]. split; auto. intros o Ho. rewrite (C2 o Ho). unfold window_fits. lia.
  Qed.

  Lemma within_dim j : (j < length L)%nat -> dim_within (nth j Lp []) (nth j ny 0) (k j) (s j) (d j).
  Proof.
    intros Hj. specialize (Hin j Hj). unfold k, s, d. rewrite fw_eq. rewrite full_eq in Hin.
    cbn [w_kernel w_stride w_padding w_dilation] in *. now rewrite Lp_nth.
  Qed.

  Lemma narrow : halos_narrow Lp H.
  Proof.
    apply Forall2_nth with (da := []) (db := []). unfold H, feature_halos. fold gp Lp fw. split; [now rewrite layer_halos_length|].
    intros j Hj. rewrite layer_halos_nth by auto. rewrite Lp_length in Hj. rewrite fw_padding.
    destruct (ny_dim j Hj) as [N1 N2]. destruct (param_pos j Hj) as (Ak & As & Ad).
    apply (dim_narrow_within (nth j Lp []) (nth j ny 0)); auto; [|now apply within_dim].
    apply ext_nth with (L := Lp); auto using Lp_ok. now rewrite Lp_length.
  Qed.

  Section Worker.
    Variable idx : list Z.
    Hypothesis Hi : valid_index (p_shape P) idx.

    Let i j := nth j idx 0.
    Let e j := nth j Lp [].
    Let ylo j := start1 (Z.of_nat (length (e j))) (i j) (nth j ny 0).
    Let yn j := subshape1 (Z.of_nat (length (e j))) (i j) (nth j ny 0).
    Let lo j := dim_lo (e j) (i j).
    Let n j := nth (Z.to_nat (i j)) (e j) 0.

    Lemma idx_length : length idx = length L.
    Proof. apply valid_index_length in Hi. rewrite <- HW, layout_workers_length in Hi. auto. Qed.

    Lemma idx_bound j : (j < length L)%nat -> 0 <= i j < Z.of_nat (length (nth j L [])).
    Proof. intros Hj. apply valid_nth; auto. now rewrite HW. Qed.

    Lemma e_length j : (j < length L)%nat -> length (e j) = length (nth j L []).
    Proof. intros Hj. unfold e. rewrite Lp_nth by auto. apply pad1_length. Qed.

    Lemma facts j : (j < length L)%nat ->
      0 < yn j /\ lo j + n j <= s j * (ylo j + yn j) + d j * (k j - 1) /\
      halo_left (e j) (k j) (s j) 0 (d j) (i j) = lo j - s j * ylo j /\
      halo_right (e j) (k j) (s j) 0 (d j) (i j) = s j * (ylo j + yn j - 1) + d j * (k j - 1) + 1 - (lo j + n j) /\
      0 <= ylo j /\ ylo j + yn j <= nth j ny 0 /\ 0 <= lo j /\ 0 <= n j.
    Proof.
      intros Hj. destruct (ny_dim j Hj) as [N1 N2]. destruct (param_pos j Hj) as (Ak & As & Ad).
      pose proof (idx_bound j Hj) as Hb. pose proof (e_length j Hj) as El.
      assert (Hz : (Z.to_nat (i j) < length (e j))%nat) by lia.
      pose proof (dim_facts (e j) (nth j ny 0) (k j) (s j) (d j) (Z.to_nat (i j)) Hz) as F.
      rewrite Z2Nat.id in F by lia. apply F; auto; [|now apply within_dim].
      apply ext_nth with (L := Lp); auto using Lp_ok. now rewrite Lp_length.
    Qed.

    Lemma outputs j : (j < length L)%nat ->
      out_extent (Z.max (lo j + n j) (s j * (ylo j + yn j - 1) + d j * (k j - 1) + 1) - s j * ylo j) (k j) (s j) 0 (d j) = yn j.
    Proof.
      intros Hj. destruct (ny_dim j Hj) as [N1 N2]. destruct (param_pos j Hj) as (Ak & As & Ad).
      pose proof (idx_bound j Hj) as Hb. pose proof (e_length j Hj) as El.
      assert (Hz : (Z.to_nat (i j) < length (e j))%nat) by lia.
      pose proof (local_outputs (e j) (nth j ny 0) (k j) (s j) (d j) (Z.to_nat (i j)) Hz) as F.
      rewrite Z2Nat.id in F by lia. apply F; auto; [|now apply within_dim].
      apply ext_nth with (L := Lp); auto using Lp_ok. now rewrite Lp_length.
    Qed.

    Lemma H_len : length H = length L.
    Proof. unfold H, feature_halos. rewrite layer_halos_length. apply Lp_length. Qed.

    Lemma recv_at j : (j < length L)%nat ->
      nth j (recv_plan H idx) (0, 0) =
      (Z.max (halo_left (e j) (k j) (s j) 0 (d j) (i j)) 0, Z.max (halo_right (e j) (k j) (s j) 0 (d j) (i j)) 0).
    Proof.
      intros Hj. rewrite recv_plan_nth by (rewrite H_len; auto using idx_length). unfold H, feature_halos. fold gp Lp fw.
      rewrite layer_halos_nth by (now rewrite Lp_length). rewrite fw_padding. fold (e j) (k j) (s j) (d j).
      rewrite dim_halos_at; auto. rewrite e_length by auto. now apply idx_bound.
    Qed.

    Lemma left_at j : (j < length L)%nat ->
      nth j (left_halo H idx) 0 = Z.max (halo_left (e j) (k j) (s j) 0 (d j) (i j)) 0.
    Proof.
      intros Hj. change 0 with (fst (0, 0)) at 1. unfold left_halo. rewrite map_nth, recv_at by auto. reflexivity.
    Qed.
    Lemma right_at j : (j < length L)%nat ->
      nth j (right_halo H idx) 0 = Z.max (halo_right (e j) (k j) (s j) 0 (d j) (i j)) 0.
    Proof.
      intros Hj. change 0 with (snd (0, 0)) at 1. unfold right_halo. rewrite map_nth, recv_at by auto. reflexivity.
    Qed.
    Lemma left_len : length (left_halo H idx) = length L.
    Proof. unfold left_halo, recv_plan. rewrite map_length, map2_length; rewrite H_len; auto. now rewrite idx_length. Qed.
    Lemma right_len : length (right_halo H idx) = length L.
    Proof. unfold right_halo, recv_plan. rewrite map_length, map2_length; rewrite H_len; auto. now rewrite idx_length. Qed.
    Lemma shape_len : length (block_shape Lp idx) = length L.
    Proof. rewrite block_shape_length; rewrite Lp_length; auto using idx_length. Qed.
    Lemma lo_len : length (block_lo Lp idx) = length L.
    Proof. rewrite block_lo_length; rewrite Lp_length; auto using idx_length. Qed.
    Lemma shape_at j : (j < length L)%nat -> nth j (block_shape Lp idx) 0 = n j.
    Proof. intros Hj. apply block_shape_nth; rewrite Lp_length; auto using idx_length. Qed.
    Lemma lo_at j : (j < length L)%nat -> nth j (block_lo Lp idx) 0 = lo j.
    Proof. intros Hj. apply block_lo_nth; rewrite Lp_length; auto using idx_length. Qed.

    Lemma padded_len : length (padded_shape Lp H idx) = length L.
    Proof.
      unfold padded_shape, vadd. rewrite !map2_length; rewrite ?map2_length; rewrite ?left_len, ?right_len, ?shape_len; auto.
    Qed.
    Lemma padded_at j : (j < length L)%nat -> nth j (padded_shape Lp H idx) 0 =
      Z.max (halo_left (e j) (k j) (s j) 0 (d j) (i j)) 0 + n j + Z.max (halo_right (e j) (k j) (s j) 0 (d j) (i j)) 0.
    Proof.
      intros Hj. unfold padded_shape, vadd.
      rewrite !map2_nth with (da := 0) (db := 0); rewrite ?map2_length; rewrite ?left_len, ?right_len, ?shape_len; auto.
      now rewrite left_at, right_at, shape_at.
    Qed.

    (** *** The slice that is handed to the torch layer *)

    Let needed := compute_needed_ranges (block_shape Lp idx) (signed_halos idx).

    Lemma needed_len : length needed = length L.
    Proof.
      unfold needed, compute_needed_ranges, signed_halos. rewrite map2_length; rewrite shape_len; auto. now rewrite vec_length.
    Qed.
    Lemma needed_at j : (j < length L)%nat -> nth j needed (0, 0) =
      (- Z.min 0 (halo_left (e j) (k j) (s j) 0 (d j) (i j)),
       n j + Z.max 0 (halo_left (e j) (k j) (s j) 0 (d j) (i j)) + Z.max 0 (halo_right (e j) (k j) (s j) 0 (d j) (i j))).
    Proof.
      intros Hj. unfold needed, compute_needed_ranges, signed_halos.
      rewrite map2_nth with (da := 0) (db := (0, 0)) by (rewrite ?shape_len, ?vec_length; auto).
      rewrite vec_nth by auto. now rewrite shape_at.
    Qed.

    Definition local_extents : list Z :=
      vec (length L) (fun j => Z.max (lo j + n j) (s j * (ylo j + yn j - 1) + d j * (k j - 1) + 1) - s j * ylo j).
    Definition first_input : list Z := vec (length L) (fun j => s j * ylo j).

    Lemma slice_at j : (j < length L)%nat ->
      nth j (map2 py_slice (padded_shape Lp H idx) needed) (0, 0) =
      (Z.max 0 (s j * ylo j - lo j), Z.max (lo j + n j) (s j * (ylo j + yn j - 1) + d j * (k j - 1) + 1) - lo j
                                     + Z.max 0 (lo j - s j * ylo j)).
    Proof.
      intros Hj. rewrite map2_nth with (da := 0) (db := (0, 0)) by (rewrite ?padded_len, ?needed_len; auto).
      rewrite padded_at, needed_at by auto. destruct (facts j Hj) as (F1 & F2 & F3 & F4 & F5 & F6 & F7 & F8).
      rewrite F3, F4. unfold py_slice. cbn [fst snd]. destruct (param_pos j Hj) as (Ak & As & Ad).
      assert (s j * ylo j <= s j * (ylo j + yn j - 1)) by (apply Z.mul_le_mono_nonneg_l; lia).
      assert (0 <= d j * (k j - 1)) by (apply Z.mul_nonneg_nonneg; lia).
      f_equal; lia.
    Qed.

    Context {R : CRing}.

    Lemma sliced_shape (y : tensor R) : tshape y = padded_shape Lp H idx -> tshape (slice_tensor y needed) = local_extents.
    Proof.
      intros Ey. unfold slice_tensor, read_slice. cbn [tshape]. rewrite Ey. unfold compute_nd_slice_shape, local_extents.
      apply list_eq_nth with (d := 0).
      - rewrite map_length, vec_length, map2_length; rewrite padded_len; auto. now rewrite needed_len.
      - intros j Hj. rewrite map_length, map2_length in Hj by (rewrite padded_len, needed_len; auto). rewrite padded_len in Hj.
        change 0 with ((fun s0 : slice => snd s0 - fst s0) (0, 0)) at 1. rewrite map_nth, slice_at by auto.
        rewrite vec_nth by auto. cbn [fst snd]. lia.
    Qed.

    Lemma sliced_value (y : tensor R) (V : list Z -> R) : tshape y = padded_shape Lp H idx ->
      (forall q, valid_index (padded_shape Lp H idx) q ->
         tat y q = V (vadd (vsub (block_lo Lp idx) (left_halo H idx)) q)) ->
      forall q, valid_index local_extents q -> tat (slice_tensor y needed) q = V (vadd first_input q).
    Proof.
      intros Ey Hy q Hq. unfold slice_tensor, read_slice. cbn [tat]. rewrite Ey.
      apply valid_index_nth in Hq as [Hl Hq]. unfold local_extents in Hl. rewrite vec_length in Hl.
      assert (El : length (map2 py_slice (padded_shape Lp H idx) needed) = length L).
      { rewrite map2_length; rewrite padded_len; auto. now rewrite needed_len. }
      assert (E1 : length (vsub (block_lo Lp idx) (left_halo H idx)) = length L).
      { unfold vsub. rewrite map2_length; rewrite lo_len; auto. now rewrite left_len. }
      assert (E3 : length first_input = length L) by (unfold first_input; apply vec_length).
      unfold slice in *. match type of El with length ?a = _ => set (sl := a) in * end.
      assert (E2 : length (map2 (fun (s0 : Z * Z) k0 => fst s0 + k0) sl q) = length L) by (rewrite map2_length; lia).
      assert (E0 : length (vsub (block_lo Lp idx) (left_halo H idx)) = length (map2 (fun (s0 : Z * Z) k0 => fst s0 + k0) sl q)) by lia.
      rewrite Hy.
      - f_equal. apply list_eq_nth with (d := 0).
        + unfold vadd, vsub in *. rewrite (map2_length _ _ _ E0), E1. rewrite map2_length; rewrite E3; auto.
        + intros j Hj. unfold vadd, vsub in *. rewrite (map2_length _ _ _ E0), E1 in Hj.
          rewrite (map2_nth Z.add (map2 Z.sub _ _)) with (da := 0) (db := 0)
            by first [exact E0 | rewrite E1; exact Hj].
          rewrite (map2_nth Z.sub) with (da := 0) (db := 0) by (rewrite ?lo_len, ?left_len; auto).
          rewrite (map2_nth _ sl q) with (da := (0, 0)) (db := 0) by (rewrite ?El; lia).
          rewrite (map2_nth _ first_input) with (da := 0) (db := 0) by lia.
          unfold sl. rewrite slice_at, lo_at, left_at by auto. unfold first_input. rewrite vec_nth by auto. cbn [fst].
          destruct (facts j Hj) as (F1 & F2 & F3 & F4 & F5 & F6 & F7 & F8). rewrite F3. lia.
      - apply valid_index_nth. rewrite map2_length by (rewrite El; auto). rewrite El, padded_len. split; auto.
        intros j Hj. rewrite map2_nth with (da := (0, 0)) (db := 0) by (rewrite ?El; lia).
        unfold sl. rewrite slice_at, padded_at by auto. cbn [fst]. specialize (Hq j). unfold local_extents in Hq. rewrite vec_length in Hq.
        specialize (Hq Hj). rewrite vec_nth in Hq by auto.
        destruct (facts j Hj) as (F1 & F2 & F3 & F4 & F5 & F6 & F7 & F8). rewrite F3, F4. lia.
    Qed.

    (** *** The padded input *)

    Let pad := compute_local_padding (p_shape P) idx gp.
    Let total := map2 (fun a b : Z * Z => (fst a + fst b, snd a + snd b)) pad (recv_plan H idx).

    Lemma total_len : length total = length L.
    Proof.
      unfold total. rewrite map2_length; unfold pad; rewrite padding_length; auto.
      unfold recv_plan. rewrite map2_length; rewrite H_len; auto. now rewrite idx_length.
    Qed.

    Let pl j := if i j =? 0 then nth j gp 0 else 0.
    Let pr j := if i j =? Z.of_nat (length (nth j L [])) - 1 then nth j gp 0 else 0.

    Lemma total_at j : (j < length L)%nat -> nth j total (0, 0) =
      (pl j + nth j (left_halo H idx) 0, pr j + nth j (right_halo H idx) 0).
    Proof.
      intros Hj. unfold total.
      rewrite map2_nth with (da := (0, 0)) (db := (0, 0)).
      - unfold pad. rewrite padding_nth, recv_at, left_at, right_at by auto. reflexivity.
      - unfold pad. now rewrite padding_length.
      - unfold pad. rewrite padding_length. unfold recv_plan. rewrite map2_length by (rewrite H_len, idx_length; auto). now rewrite H_len.
    Qed.

    Lemma pad_nonneg j : (j < length L)%nat -> 0 <= pl j /\ 0 <= pr j /\
      0 <= nth j (left_halo H idx) 0 /\ 0 <= nth j (right_halo H idx) 0.
    Proof.
      intros Hj. rewrite left_at, right_at by auto. pose proof (gp_nonneg j). unfold pl, pr.
      destruct (i j =? 0), (i j =? _); lia.
    Qed.

    (** A point of the block of the padded tensor, in one dimension. *)
    Lemma pad_point j q : (j < length L)%nat -> 0 <= q < n j ->
      dim_lo (nth j L []) (i j) - pl j = lo j - nth j gp 0 /\
      n j = nth (Z.to_nat (i j)) (nth j L []) 0 + pl j + pr j /\
      (0 <= q - pl j < nth (Z.to_nat (i j)) (nth j L []) 0 <-> 0 <= lo j + q - nth j gp 0 < zsum (nth j L [])).
    Proof.
      intros Hj Hq. pose proof (idx_bound j Hj) as Hb. pose proof (gp_nonneg j) as Hg.
      unfold n, lo, e, dim_lo in *. rewrite Lp_nth in * by auto. set (l := nth j L []) in *. set (g := nth j gp 0) in *.
      assert (Hl : Forall (fun n => 0 <= n) l) by (now apply ext_nth).
      rewrite pad1_nth in * by lia. rewrite pad1_prefix by lia.
      pose proof (zsum_firstn_le l (Z.to_nat (i j)) Hl) as B1. pose proof (zsum_firstn_le l (S (Z.to_nat (i j))) Hl) as B2.
      rewrite zsum_firstn_S in B2. unfold pl, pr. fold l g.
      destruct (Nat.eqb_spec (Z.to_nat (i j)) (length l)); [lia|]. cbn [andb].
      destruct (Z.eqb_spec (i j) 0) as [E0|E0], (Nat.eqb_spec (Z.to_nat (i j)) 0); try lia;
      destruct (Z.eqb_spec (i j) (Z.of_nat (length l) - 1)) as [E1|E1], (Nat.eqb_spec (S (Z.to_nat (i j))) (length l)) as [E2|E2]; try lia.
      - rewrite E0 in *. cbn [Z.to_nat firstn zsum fold_right] in *.
        assert (zsum l = nth 0 l 0).
        { pose proof (zsum_firstn_S l 0) as Z1. cbn [Z.to_nat] in E2. rewrite E2, firstn_all in Z1.
          cbn [firstn zsum fold_right] in Z1. lia. }
        lia.
      - rewrite E0 in *. cbn [Z.to_nat firstn zsum fold_right] in *. lia.
      - assert (zsum l = zsum (firstn (Z.to_nat (i j)) l) + nth (Z.to_nat (i j)) l 0).
        { rewrite <- zsum_firstn_S, E2. now rewrite firstn_all. }
        lia.
    Qed.

    (** Padding gives the extents of the exchanged tensor. *)
    Lemma padded_sum : map2 (fun n p => n + fst p + snd p) (block_shape L idx) total = padded_shape Lp H idx.
    Proof.
      assert (Lx : length (block_shape L idx) = length L) by (apply block_shape_length, idx_length).
      apply list_eq_nth with (d := 0).
        - rewrite map2_length, padded_len; auto. now rewrite total_len.
        - intros j Hj. rewrite map2_length in Hj by (now rewrite total_len). rewrite Lx in Hj.
          rewrite map2_nth with (da := 0) (db := (0, 0)) by (rewrite ?total_len; lia).
          rewrite total_at, padded_at by auto. rewrite <- left_at, <- right_at by auto. cbn [fst snd].
          rewrite block_shape_nth by (auto using idx_length). fold (i j).
          assert (Hn : n j = nth (Z.to_nat (i j)) (nth j L []) 0 + pl j + pr j).
          { unfold n, e. rewrite Lp_nth by auto. pose proof (idx_bound j Hj) as Hb. rewrite pad1_nth by lia. unfold pl, pr.
            destruct (Z.eqb_spec (i j) 0), (Nat.eqb_spec (Z.to_nat (i j)) 0); try lia;
            destruct (Z.eqb_spec (i j) (Z.of_nat (length (nth j L [])) - 1)),
              (Nat.eqb_spec (S (Z.to_nat (i j))) (length (nth j L []))); lia. }
          lia.
    Qed.

    (** What the layer pads onto its block [x]. *)
    Lemma padded_ok (value : R) needed_ (x : tensor R) : tshape x = block_shape L idx ->
      exists t, feature_padded value (mkfsetup pad (recv_plan H idx) (recv_plan H idx) (send_plan H idx) needed_) x = Ok t /\
        tshape t = padded_shape Lp H idx /\
        forall q, valid_index (padded_shape Lp H idx) q -> tat t q = tat (padded value total x) q.
    Proof.
      intros Ex. assert (Lx : length (tshape x) = length L).
      { rewrite Ex. apply block_shape_length. apply idx_length. }
      pose proof padded_sum as Sh. rewrite <- Ex in Sh.
      unfold feature_padded. cbn [u_padding u_halo]. fold total.
      destruct (Z.eqb_spec (zsum (map (fun p => fst p + snd p) total)) 0) as [E|E].
      - exists x. split; [auto|].
        assert (Z0 : forall j, (j < length L)%nat -> nth j total (0, 0) = (0, 0)).
        { assert (Nn : Forall (fun z => 0 <= z) (map (fun p : Z * Z => fst p + snd p) total)).
          { apply Forall_forall. intros z Hz. apply in_map_iff in Hz as (p & <- & Hp). apply In_nth with (d := (0, 0)) in Hp as (j & Hj & <-).
            rewrite total_len in Hj. rewrite total_at by auto. destruct (pad_nonneg j Hj) as (A1 & A2 & A3 & A4). cbn [fst snd]. lia. }
          intros j Hj. assert (Zj : nth j (map (fun p : Z * Z => fst p + snd p) total) 0 = 0).
          { clear - Nn E. revert j E. induction Nn as [|z l Hz Nn IH]; intros j E; [now destruct j|].
            assert (0 <= zsum l) by (clear - Nn; induction Nn; cbn [zsum fold_right] in *; [lia|]; fold (zsum l) in *; lia).
            cbn [zsum fold_right] in E. fold (zsum l) in E. destruct j; cbn [nth]; [lia|apply IH; lia]. }
          change 0 with ((fun p : Z * Z => fst p + snd p) (0, 0)) in Zj at 1. rewrite map_nth in Zj. rewrite total_at in * by auto.
          destruct (pad_nonneg j Hj) as (A1 & A2 & A3 & A4). cbn [fst snd] in Zj. f_equal; lia. }
        assert (Ex' : tshape x = padded_shape Lp H idx).
        { rewrite <- Sh. apply list_eq_nth with (d := 0).
          - rewrite map2_length; auto. now rewrite total_len.
          - intros j Hj. rewrite map2_nth with (da := 0) (db := (0, 0)) by (rewrite ?total_len; lia).
            rewrite Z0 by lia. cbn [fst snd]. lia. }
        split; [auto|]. intros q Hq. cbn [padded tat].
        assert (Eq : map2 (fun (k : Z) (p : Z * Z) => k - fst p) q total = q).
        { pose proof (valid_index_length _ _ Hq) as Hl. rewrite padded_len in Hl. apply list_eq_nth with (d := 0).
          - rewrite map2_length; rewrite ?total_len; lia.
          - intros j Hj. rewrite map2_length in Hj by (rewrite total_len; lia).
            rewrite map2_nth with (da := 0) (db := (0, 0)) by (rewrite ?total_len; lia). rewrite Z0 by lia. cbn [fst]. lia. }
        rewrite Eq, padded_test, (proj2 (inside_spec (tshape x) q)); auto.
        + now rewrite Ex'.
        + apply valid_index_length in Hq. rewrite Ex'. lia.
      - destruct (C42_proof R value total x) as (t & E1 & E2 & E3); [now rewrite total_len|].
        exists t. rewrite E1. split; auto. split; [congruence|]. intros q Hq. apply E3.
        apply valid_index_length in Hq. rewrite padded_len in Hq. rewrite total_len. lia.
    Qed.

    (** The bulk of the padded input is the worker's block of the padded tensor. *)
    Lemma padded_bulk (value : R) (G x : tensor R) p : tshape G = layout_shape L -> teq x (block L idx G) ->
      valid_index (block_shape Lp idx) p ->
      tat (padded value total x) (vadd (left_halo H idx) p) =
      value_at G value (vsub (vadd (block_lo Lp idx) p) gp).
    Proof.
      intros EG [Ex Vx] Hp. cbn [block tshape tat] in Ex, Vx.
      apply valid_index_nth in Hp as [Hl Hp]. rewrite shape_len in Hl, Hp.
      assert (Lx : length (block_shape L idx) = length L) by (apply block_shape_length, idx_length).
      assert (Ll : length (block_lo L idx) = length L) by (apply block_lo_length, idx_length).
      set (g := vsub (vadd (block_lo Lp idx) p) gp).
      assert (Lg : length g = length L).
      { unfold g, vsub, vadd. rewrite !map2_length; rewrite ?map2_length; rewrite ?lo_len, ?gp_length; auto. }
      assert (Ng : forall j, (j < length L)%nat -> nth j g 0 = lo j + nth j p 0 - nth j gp 0).
      { intros j Hj. unfold g, vsub, vadd.
        rewrite !map2_nth with (da := 0) (db := 0) by (rewrite ?map2_length; rewrite ?lo_len, ?gp_length; auto; lia).
        now rewrite lo_at. }
      cbn [padded tat]. set (m := map2 (fun (k : Z) (p : Z * Z) => k - fst p) (vadd (left_halo H idx) p) total).
      assert (Lv : length (vadd (left_halo H idx) p) = length L).
      { unfold vadd. rewrite map2_length; rewrite left_len; auto. }
      assert (Lm : length m = length L).
      { unfold m. rewrite map2_length; [exact Lv|]. rewrite Lv, total_len. reflexivity. }
      assert (Nm : forall j, (j < length L)%nat -> nth j m 0 = nth j p 0 - pl j).
      { intros j Hj. unfold m. rewrite map2_nth with (da := 0) (db := (0, 0)) by (rewrite ?Lv, ?total_len; auto).
        rewrite total_at by auto. unfold vadd. rewrite map2_nth with (da := 0) (db := 0) by (rewrite ?left_len; auto; lia).
        cbn [fst]. lia. }
      rewrite padded_test by (rewrite Ex; lia). unfold value_at.
      assert (Hd : forall j, (j < length L)%nat ->
        dim_lo (nth j L []) (i j) - pl j = lo j - nth j gp 0 /\
        (0 <= nth j m 0 < nth j (block_shape L idx) 0 <-> 0 <= nth j g 0 < nth j (layout_shape L) 0)).
      { intros j Hj. rewrite Nm, Ng, xshape_nth, block_shape_nth by (auto using idx_length).
        specialize (Hp j Hj). rewrite shape_at in Hp by auto. destruct (pad_point j (nth j p 0) Hj Hp) as (A & _ & B). auto. }
      assert (HV : valid_index (tshape x) m <-> valid_index (tshape G) g).
      { rewrite Ex, EG, !valid_index_nth, Lx, Lm, Lg, layout_shape_length. split; intros [_ F]; split; auto; intros j Hj; now apply Hd, F. }
      destruct (inside (tshape x) m) eqn:Em.
      - apply inside_spec in Em. pose proof Em as Em'. apply HV in Em'. rewrite (proj2 (inside_spec _ _) Em').
        rewrite Vx by auto. f_equal. unfold vadd. apply list_eq_nth with (d := 0).
        + rewrite map2_length; rewrite Ll; [now rewrite Lg|now rewrite Lm].
        + intros j Hj. rewrite map2_length in Hj by (rewrite Ll, Lm; auto). rewrite Ll in Hj.
          rewrite map2_nth with (da := 0) (db := 0) by (rewrite ?Ll, ?Lm; auto).
          rewrite Nm, Ng, block_lo_nth by (auto using idx_length). destruct (Hd j Hj) as [A _]. fold (i j). lia.
      - destruct (inside (tshape G) g) eqn:Eg; auto. apply inside_spec in Eg. apply HV in Eg. apply inside_spec in Eg. congruence.
    Qed.
  End Worker.
End Layer.
