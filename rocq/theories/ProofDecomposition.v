(** Lemmas about whole-partition decompositions (C03). *)

From Verif Require Import Prelude ModelSlicing ModelDecomposition SpecIndex SpecLayout ProofSlicing.

(** * Layouts tile *)

Lemma zsum_firstn_S e k : zsum (firstn (S k) e) = zsum (firstn k e) + nth k e 0.
Proof.
  revert k. induction e as [|x e IH]; intros k; simpl.
  - rewrite firstn_nil. destruct k; reflexivity.
  - destruct k; simpl; [lia|]. rewrite <- Z.add_assoc, <- IH. reflexivity.
Qed.

Lemma nth_nonneg e k : Forall (fun n => 0 <= n) e -> 0 <= nth k e 0.
Proof.
  intros H. revert k. induction H; intros k; destruct k; simpl; auto; lia.
Qed.

Lemma zsum_firstn_mono e j k : Forall (fun n => 0 <= n) e -> (j <= k)%nat ->
  zsum (firstn j e) <= zsum (firstn k e).
Proof.
  intros H. induction 1 as [|k Hk IH]; [lia|].
  rewrite zsum_firstn_S. pose proof (nth_nonneg e k H). lia.
Qed.

Lemma zsum_firstn_le e k : Forall (fun n => 0 <= n) e -> 0 <= zsum (firstn k e) <= zsum e.
Proof.
  intros H. split.
  - apply (zsum_firstn_mono e 0 k); auto. lia.
  - destruct (Nat.le_gt_cases k (length e)) as [L|L].
    + rewrite <- (firstn_all e) at 2. apply zsum_firstn_mono; auto.
    + rewrite firstn_all2 by lia. lia.
Qed.

Lemma ext_owner e g : Forall (fun n => 0 <= n) e -> 0 <= g < zsum e ->
  exists k, (k < length e)%nat /\ zsum (firstn k e) <= g < zsum (firstn (S k) e).
Proof.
  intros He. revert g. induction He as [|x e Hx He IH]; intros g Hg.
  - simpl in Hg. lia.
  - destruct (Z_lt_ge_dec g x) as [C|C].
    + exists 0%nat. simpl. lia.
    + destruct (IH (g - x)) as (k & Hk & B). { simpl in Hg. lia. }
      exists (S k). split; [simpl; lia|]. simpl in *. lia.
Qed.

Lemma ext_owner_unique e g j k : Forall (fun n => 0 <= n) e ->
  zsum (firstn j e) <= g < zsum (firstn (S j) e) ->
  zsum (firstn k e) <= g < zsum (firstn (S k) e) -> j = k.
Proof.
  intros He H1 H2. destruct (Nat.lt_trichotomy j k) as [L|[E|L]]; auto.
  - pose proof (zsum_firstn_mono e (S j) k He). lia.
  - pose proof (zsum_firstn_mono e (S k) j He). lia.
Qed.

Lemma layout_tiles_exists L g : layout_ok L -> valid_index (layout_shape L) g ->
  exists w, valid_index (layout_workers L) w /\ in_box (block_lo L w) (block_hi L w) g.
Proof.
  intros HL. revert g. induction HL as [|e L He HL IH]; intros g Hg.
  - apply valid_index_nil in Hg. subst. exists []. split; [constructor|now apply in_box_nil].
  - apply valid_index_cons_inv in Hg as (x & t & -> & Hx & Ht).
    destruct (IH t Ht) as (w & Hw & Hb).
    destruct (ext_owner e x He Hx) as (k & Hk & B).
    exists (Z.of_nat k :: w). split.
    + apply valid_index_cons. split; auto. lia.
    + simpl. apply in_box_cons. rewrite Nat2Z.id. split; auto.
Qed.

Lemma layout_tiles_unique L g w w' : layout_ok L ->
  valid_index (layout_workers L) w -> valid_index (layout_workers L) w' ->
  in_box (block_lo L w) (block_hi L w) g -> in_box (block_lo L w') (block_hi L w') g -> w = w'.
Proof.
  intros HL. revert g w w'. induction HL as [|e L He HL IH]; intros g w w' Hw Hw' H1 H2.
  - apply valid_index_nil in Hw, Hw'. congruence.
  - apply valid_index_cons_inv in Hw as (i & t & -> & Hi & Ht).
    apply valid_index_cons_inv in Hw' as (i' & t' & -> & Hi' & Ht').
    apply in_box_cons_inv in H1 as (x & u & -> & Hx & Hu).
    apply in_box_cons in H2 as (Hx' & Hu').
    f_equal; [|eapply IH; eauto].
    pose proof (ext_owner_unique e x (Z.to_nat i) (Z.to_nat i') He Hx Hx'). lia.
Qed.

Lemma layout_tiles_inside L g w : layout_ok L -> valid_index (layout_workers L) w ->
  in_box (block_lo L w) (block_hi L w) g -> valid_index (layout_shape L) g.
Proof.
  intros HL. revert g w. induction HL as [|e L He HL IH]; intros g w Hw H1.
  - apply valid_index_nil in Hw. subst. apply in_box_nil in H1. subst. constructor.
  - apply valid_index_cons_inv in Hw as (i & t & -> & Hi & Ht).
    apply in_box_cons_inv in H1 as (x & u & -> & Hx & Hu).
    apply valid_index_cons. split; [|eapply IH; eauto].
    pose proof (zsum_firstn_le e (Z.to_nat i) He).
    pose proof (zsum_firstn_le e (S (Z.to_nat i)) He). lia.
Qed.

Lemma layout_workers_length L : length (layout_workers L) = length L.
Proof. unfold layout_workers. now rewrite map_length. Qed.

Lemma layout_shape_length L : length (layout_shape L) = length L.
Proof. unfold layout_shape. now rewrite map_length. Qed.

Lemma block_lo_length L w : length w = length L -> length (block_lo L w) = length L.
Proof. intros. unfold block_lo. now apply map2_length. Qed.
Lemma block_hi_length L w : length w = length L -> length (block_hi L w) = length L.
Proof. intros. unfold block_hi. now apply map2_length. Qed.
Lemma block_shape_length L w : length w = length L -> length (block_shape L w) = length L.
Proof. intros. unfold block_shape. now apply map2_length. Qed.

Lemma block_hi_lo L w : length w = length L ->
  block_hi L w = vadd (block_lo L w) (block_shape L w).
Proof.
  revert w. induction L as [|e L IH]; intros [|i w] H; try discriminate; auto.
  unfold block_hi, block_lo, block_shape, vadd in *. cbn [map2]. f_equal.
  - apply zsum_firstn_S.
  - apply IH. simpl in H. lia.
Qed.

Lemma block_shape_nonneg L w : layout_ok L -> nonneg_shape (block_shape L w).
Proof.
  intros HL. revert w. induction HL; intros [|i w]; unfold block_shape; simpl;
    try constructor; auto. now apply nth_nonneg. apply IHHL.
Qed.

Lemma layout_shape_nonneg L : layout_ok L -> nonneg_shape (layout_shape L).
Proof.
  intros H. induction H; constructor; auto.
  pose proof (zsum_firstn_le x 0 H). simpl in *. lia.
Qed.

(** Generic translation between local and global indices of a box. *)
Lemma box_local_global lo sh l : length lo = length sh -> valid_index sh l ->
  in_box lo (vadd lo sh) (vadd lo l).
Proof.
  revert sh l. induction lo as [|a lo IH]; intros [|s sh] l HL Hl; try discriminate.
  - apply valid_index_nil in Hl. subst. now apply in_box_nil.
  - apply valid_index_cons_inv in Hl as (x & t & -> & Hx & Ht).
    unfold vadd. simpl. apply in_box_cons. split; [lia|]. apply IH; auto.
Qed.

Lemma box_global_local lo sh g : length lo = length sh -> in_box lo (vadd lo sh) g ->
  valid_index sh (vsub g lo) /\ vadd lo (vsub g lo) = g.
Proof.
  revert sh g. induction lo as [|a lo IH]; intros [|s sh] g HL Hg; try discriminate.
  - apply in_box_nil in Hg. subst. split; [constructor|auto].
  - unfold vadd in Hg. simpl in Hg. apply in_box_cons_inv in Hg as (x & t & -> & Hx & Ht).
    destruct (IH sh t) as [I1 I2]; auto.
    unfold vadd, vsub in *. simpl. split.
    + apply valid_index_cons. split; [lia|auto].
    + rewrite I2. f_equal. lia.
Qed.

Lemma vadd_vsub lo l : length lo = length l -> vsub (vadd lo l) lo = l.
Proof.
  revert l. induction lo as [|a lo IH]; intros [|x l] H; try discriminate; auto.
  unfold vadd, vsub in *. simpl. f_equal; [lia|]. apply IH. simpl in H; lia.
Qed.

(** * The cumulative sums of the model *)

Lemma fold_steps_nth (step : warray -> nat -> warray) (F : nat -> warray -> list Z -> Z) D :
  (forall A d w k, (d < D)%nat -> (k < D)%nat -> length w = D -> (forall w, length w = D -> length (A w) = D) ->
     nth k (step A d w) 0 = if Nat.eqb k d then F d A w else nth k (A w) 0) ->
  (forall A d w, (forall w, length w = D -> length (A w) = D) -> length w = D -> length (step A d w) = D) ->
  (forall d A B w, (d < D)%nat -> length w = D ->
     (forall w, length w = D -> nth d (A w) 0 = nth d (B w) 0) -> F d A w = F d B w) ->
  forall A, (forall w, length w = D -> length (A w) = D) ->
  forall n, (n <= D)%nat ->
  let R := fold_left step (seq 0 n) A in
  (forall w, length w = D -> length (R w) = D) /\
  (forall w k, length w = D -> (k < D)%nat ->
     nth k (R w) 0 = if (k <? n)%nat then F k A w else nth k (A w) 0).
Proof.
  intros Hstep Hlen Hext A HA n. induction n as [|n IH]; intros Hn.
  - simpl. split; auto.
  - rewrite seq_S, fold_left_app. simpl.
    destruct IH as [IH1 IH2]; [lia|]. cbv zeta in *.
    split.
    + intros w Hw. apply Hlen; auto.
    + intros w k Hw Hk. rewrite Hstep; auto; try lia.
      destruct (Nat.eqb_spec k n) as [->|Hne].
      * replace (n <? S n)%nat with true by (symmetry; apply Nat.ltb_lt; lia).
        apply Hext; auto. intros w' Hw'. rewrite IH2 by (auto; lia).
        replace (n <? n)%nat with false by (symmetry; apply Nat.ltb_ge; lia). reflexivity.
      * rewrite IH2 by auto.
        destruct (Nat.ltb_spec k n), (Nat.ltb_spec k (S n)); auto; lia.
Qed.

Definition cum_at (d : nat) (A : warray) (w : list Z) : Z :=
  zsum (map (fun j => nth d (A (upd d j w)) 0) (zrange (nth d w 0 + 1))).

Definition shift_at (d : nat) (A : warray) (w : list Z) : Z :=
  if nth d w 0 =? 0 then 0 else nth d (A (upd d (nth d w 0 - 1) w)) 0.

Lemma stop_indices_spec D A : (forall w, length w = D -> length (A w) = D) ->
  (forall w, length w = D -> length (compute_subtensor_stop_indices D A w) = D) /\
  (forall w k, length w = D -> (k < D)%nat ->
    nth k (compute_subtensor_stop_indices D A w) 0 = cum_at k A w).
Proof.
  intros HA.
  destruct (fold_steps_nth cumsum_step cum_at D) with (A := A) (n := D) as [H1 H2]; auto.
  - intros B d w k Hd Hk Hw HB. unfold cumsum_step. destruct (Nat.eqb_spec k d) as [->|].
    + rewrite upd_nth_eq; auto. rewrite HB; auto.
    + rewrite upd_nth_neq; auto.
  - intros B d w HB Hw. unfold cumsum_step. rewrite upd_length. auto.
  - intros d B C w Hd Hw HBC. unfold cum_at. f_equal. apply map_ext. intros j.
    apply HBC. now rewrite upd_length.
  - split; auto. intros w k Hw Hk. unfold compute_subtensor_stop_indices. rewrite H2 by auto.
    replace (k <? D)%nat with true by (symmetry; apply Nat.ltb_lt; lia). reflexivity.
Qed.

Lemma start_indices_spec D A : (forall w, length w = D -> length (A w) = D) ->
  (forall w, length w = D -> length (compute_subtensor_start_indices D A w) = D) /\
  (forall w k, length w = D -> (k < D)%nat ->
    nth k (compute_subtensor_start_indices D A w) 0 =
    if nth k w 0 =? 0 then 0 else cum_at k A (upd k (nth k w 0 - 1) w)).
Proof.
  intros HA. destruct (stop_indices_spec D A HA) as [S1 S2].
  destruct (fold_steps_nth shift_step shift_at D) with
    (A := compute_subtensor_stop_indices D A) (n := D) as [H1 H2]; auto.
  - intros B d w k Hd Hk Hw HB. unfold shift_step. destruct (Nat.eqb_spec k d) as [->|].
    + rewrite upd_nth_eq; auto. rewrite HB; auto.
    + rewrite upd_nth_neq; auto.
  - intros B d w HB Hw. unfold shift_step. rewrite upd_length. auto.
  - intros d B C w Hd Hw HBC. unfold shift_at. destruct (_ =? 0); auto.
    apply HBC. now rewrite upd_length.
  - split; auto. intros w k Hw Hk. unfold compute_subtensor_start_indices. rewrite H2 by auto.
    replace (k <? D)%nat with true by (symmetry; apply Nat.ltb_lt; lia).
    unfold shift_at. destruct (_ =? 0); auto. apply S2; auto. now rewrite upd_length.
Qed.

(** On layouts *)

Lemma zsum_nth_prefix e m : 0 <= m <= Z.of_nat (length e) ->
  zsum (map (fun j => nth (Z.to_nat j) e 0) (zrange m)) = zsum (firstn (Z.to_nat m) e).
Proof.
  intros [H0 H1]. rewrite <- (Z2Nat.id m) at 1 by auto.
  assert (H : (Z.to_nat m <= length e)%nat) by lia. clear H0 H1.
  induction (Z.to_nat m) as [|k IH].
  - rewrite zrange_nonpos by lia. reflexivity.
  - rewrite Nat2Z.inj_succ. unfold Z.succ. rewrite zrange_succ by lia.
    rewrite map_app, zsum_app, IH by lia. rewrite zsum_firstn_S. simpl.
    rewrite Nat2Z.id. lia.
Qed.

Lemma layout_cum L A w k j : layout_ok L -> (k < length L)%nat -> length w = length L ->
  valid_index (layout_workers L) w ->
  (forall w, valid_index (layout_workers L) w -> A w = block_shape L w) ->
  0 <= j <= nth k w 0 ->
  cum_at k A (upd k j w) = zsum (firstn (S (Z.to_nat j)) (nth k L [])).
Proof.
  intros HL Hk Hw Hv HA Hj. unfold cum_at.
  rewrite upd_nth_eq by lia.
  pose proof Hv as Hv'. apply valid_index_nth in Hv' as [HV1 HV2].
  assert (Hb : nth k w 0 < Z.of_nat (length (nth k L []))).
  { specialize (HV2 k). rewrite layout_workers_length in HV2. specialize (HV2 Hk).
    unfold layout_workers in HV2.
    erewrite nth_error_nth with (n := k) (l := map _ _) in HV2.
    2:{ apply map_nth_error. apply nth_error_nth' with (d := []). auto. }
    lia. }
  rewrite <- (Z2Nat.id (j + 1)) by lia.
  replace (S (Z.to_nat j)) with (Z.to_nat (j + 1)) by lia.
  rewrite <- zsum_nth_prefix by lia. f_equal.
  rewrite Z2Nat.id by lia.
  apply map_ext_in. intros i Hi. apply in_zrange in Hi.
  assert (Hupd : upd k i (upd k j w) = upd k i w).
  { apply list_eq_nth with (d := 0).
    - now rewrite !upd_length.
    - intros m Hm. rewrite !upd_length in Hm. destruct (Nat.eq_dec m k) as [->|Hne].
      + rewrite !upd_nth_eq; auto; rewrite ?upd_length; auto.
      + rewrite !upd_nth_neq; auto. }
  rewrite Hupd. rewrite HA.
  - unfold block_shape. rewrite map2_nth with (da := []) (db := 0) by (rewrite ?upd_length; lia).
    rewrite upd_nth_eq by lia. reflexivity.
  - apply valid_index_nth. rewrite upd_length. split; auto. intros m Hm.
    destruct (Nat.eq_dec m k) as [->|Hne].
    + rewrite upd_nth_eq by lia. specialize (HV2 k Hm). lia.
    + rewrite upd_nth_neq by auto. apply HV2. auto.
Qed.

Lemma upd_same_nth k (w : list Z) : (k < length w)%nat -> upd k (nth k w 0) w = w.
Proof.
  intros H. apply list_eq_nth with (d := 0).
  - now rewrite upd_length.
  - intros m Hm. rewrite upd_length in Hm. destruct (Nat.eq_dec m k) as [->|Hne].
    + now rewrite upd_nth_eq.
    + rewrite upd_nth_neq; auto.
Qed.

Lemma layout_stop L A w : layout_ok L -> valid_index (layout_workers L) w ->
  (forall w, length w = length L -> length (A w) = length L) ->
  (forall w, valid_index (layout_workers L) w -> A w = block_shape L w) ->
  compute_subtensor_stop_indices (length L) A w = block_hi L w.
Proof.
  intros HL Hv HLen HA.
  pose proof (valid_index_length _ _ Hv) as Hw. rewrite layout_workers_length in Hw.
  destruct (stop_indices_spec (length L) A HLen) as [S1 S2].
  apply list_eq_nth with (d := 0).
  - rewrite S1 by auto. now rewrite block_hi_length.
  - intros k Hk. rewrite S1 in Hk by auto. rewrite S2 by auto.
    rewrite <- (upd_same_nth k w) at 1 by lia.
    rewrite layout_cum with (L := L); auto.
    + unfold block_hi. now rewrite map2_nth with (da := []) (db := 0) by lia.
    + apply valid_index_nth in Hv as [_ Hv]. specialize (Hv k).
      rewrite layout_workers_length in Hv. lia.
Qed.

Lemma layout_start L A w : layout_ok L -> valid_index (layout_workers L) w ->
  (forall w, length w = length L -> length (A w) = length L) ->
  (forall w, valid_index (layout_workers L) w -> A w = block_shape L w) ->
  compute_subtensor_start_indices (length L) A w = block_lo L w.
Proof.
  intros HL Hv HLen HA.
  pose proof (valid_index_length _ _ Hv) as Hw. rewrite layout_workers_length in Hw.
  destruct (start_indices_spec (length L) A HLen) as [S1 S2].
  apply list_eq_nth with (d := 0).
  - rewrite S1 by auto. now rewrite block_lo_length.
  - intros k Hk. rewrite S1 in Hk by auto. rewrite S2 by auto.
    assert (0 <= nth k w 0).
    { apply valid_index_nth in Hv as [_ Hv']. specialize (Hv' k).
      rewrite layout_workers_length in Hv'. lia. }
    unfold block_lo. rewrite map2_nth with (da := []) (db := 0) by lia.
    destruct (Z.eqb_spec (nth k w 0) 0) as [E|E].
    + rewrite E. reflexivity.
    + rewrite layout_cum with (L := L); auto; [|lia].
      f_equal. f_equal. lia.
Qed.

(** * Balanced layouts *)

Lemma balanced1_length n P : length (balanced1 n P) = Z.to_nat P.
Proof. unfold balanced1. now rewrite map_length, zrange_length. Qed.

Lemma balanced1_nth n P i : 0 <= i < P -> nth (Z.to_nat i) (balanced1 n P) 0 = subshape1 P i n.
Proof.
  intros H. unfold balanced1.
  erewrite nth_error_nth; [reflexivity|].
  erewrite map_nth_error; [|apply zrange_nth_error; lia].
  rewrite Z2Nat.id by lia. unfold subshape1. f_equal. destruct (i <? n mod P); lia.
Qed.

Lemma balanced1_prefix n P i : 0 < P -> 0 <= i <= P ->
  zsum (firstn (Z.to_nat i) (balanced1 n P)) = start1 P i n.
Proof.
  intros HP H. rewrite <- zsum_nth_prefix by (rewrite balanced1_length; lia).
  rewrite <- subshape1_sum_prefix by lia. f_equal. apply map_ext_in.
  intros j Hj. apply in_zrange in Hj. apply balanced1_nth. lia.
Qed.

Lemma balanced_ok shape P : pos_shape P -> nonneg_shape shape -> layout_ok (balanced shape P).
Proof.
  unfold balanced, layout_ok. intros HP. revert shape.
  induction HP as [|p P Hp HP IH]; intros shape Hs; destruct shape; simpl; try constructor.
  - apply Forall_forall. intros x Hx. unfold balanced1 in Hx. apply in_map_iff in Hx as (i & <- & Hi).
    inv Hs. pose proof (Z.div_pos z p). destruct (_ <? _); lia.
  - apply IH. now inv Hs.
Qed.

Lemma balanced_workers shape P : pos_shape P -> length shape = length P ->
  layout_workers (balanced shape P) = P.
Proof.
  unfold balanced, layout_workers. intros HP. revert shape.
  induction HP as [|p P Hp HP IH]; intros shape Hs; destruct shape; try discriminate; simpl; auto.
  rewrite balanced1_length. f_equal; [lia|]. apply IH. simpl in Hs; lia.
Qed.

Lemma balanced_shape shape P : pos_shape P -> nonneg_shape shape -> length shape = length P ->
  layout_shape (balanced shape P) = shape.
Proof.
  unfold balanced, layout_shape. intros HP. revert shape.
  induction HP as [|p P Hp HP IH]; intros shape Hn Hs; destruct shape; try discriminate; simpl; auto.
  inv Hn. f_equal; [|apply IH; auto].
  rewrite <- (firstn_all (balanced1 z p)), balanced1_length.
  rewrite balanced1_prefix by lia. apply start1_P; auto.
Qed.

Lemma balanced_block_shape shape P w : pos_shape P -> length shape = length P ->
  valid_index P w -> block_shape (balanced shape P) w = compute_subshape P w shape.
Proof.
  unfold balanced, block_shape. intros HP. revert shape w.
  induction HP as [|p P Hp HP IH]; intros shape w Hs Hw; destruct shape; try discriminate; auto.
  apply valid_index_cons_inv in Hw as (i & t & -> & Hi & Ht). simpl.
  rewrite subshape_unfold. f_equal; [now apply balanced1_nth|]. apply IH; auto.
Qed.

Lemma balanced_block_lo shape P w : pos_shape P -> length shape = length P ->
  valid_index P w -> block_lo (balanced shape P) w = compute_start_index P w shape.
Proof.
  unfold balanced, block_lo. intros HP. revert shape w.
  induction HP as [|p P Hp HP IH]; intros shape w Hs Hw; destruct shape; try discriminate; auto.
  apply valid_index_cons_inv in Hw as (i & t & -> & Hi & Ht). simpl.
  rewrite start_unfold. f_equal; [apply balanced1_prefix; lia|]. apply IH; auto.
Qed.

Lemma balanced_block_hi shape P w : pos_shape P -> length shape = length P ->
  valid_index P w -> block_hi (balanced shape P) w = compute_stop_index P w shape.
Proof.
  intros HP Hs Hw.
  assert (length w = length P) by now apply valid_index_length.
  rewrite block_hi_lo.
  - rewrite balanced_block_lo, balanced_block_shape by auto. reflexivity.
  - unfold balanced. rewrite map2_length; lia.
Qed.

Lemma fold_assign_in {A} (l : list (list Z)) w (v : list Z -> A) d : In w l ->
  fold_left (fun acc idx => if zlist_eqb idx w then v idx else acc) l d = v w.
Proof.
  assert (G : forall l d, d = v w \/ In w l ->
    fold_left (fun acc idx => if zlist_eqb idx w then v idx else acc) l d = v w).
  { clear. intros l. induction l as [|x l IH]; intros d [H|H]; simpl; auto; try (now destruct H).
    - apply IH. left. destruct (zlist_eqb x w) eqn:E; auto. apply zlist_eqb_eq in E. now subst.
    - apply IH. destruct H as [->|H]; auto. rewrite zlist_eqb_refl. auto. }
  intros H. apply G. auto.
Qed.

Lemma map3_swap {A B C D} (f : A -> B -> C -> D) (g : B -> C -> A -> D) :
  (forall a b c, f a b c = g b c a) -> forall la lb lc, map3 f la lb lc = map3 g lb lc la.
Proof.
  intros H la. induction la as [|a la IH]; intros lb lc.
  - destruct lb, lc; reflexivity.
  - destruct lb as [|b lb], lc as [|c lc]; try reflexivity. simpl. now rewrite H, IH.
Qed.

Lemma balanced_shapes_spec shape P w : valid_index P w ->
  compute_subtensor_shapes_balanced shape P w = compute_subshape P w shape.
Proof.
  intros Hw. unfold compute_subtensor_shapes_balanced, compute_subshape.
  rewrite fold_assign_in with (v := fun idx => map3 _ shape P idx).
  - apply map3_swap. reflexivity.
  - now apply in_range_index.
Qed.

Lemma balanced_shapes_length shape P w : length shape = length P ->
  length w = length P -> length (compute_subtensor_shapes_balanced shape P w) = length P.
Proof.
  intros Hs Hw. unfold compute_subtensor_shapes_balanced.
  assert (G : forall l d, length d = length P -> Forall (fun i => length i = length P) l ->
    length (fold_left (fun acc idx => if zlist_eqb idx w
         then map3 (fun n P i => n / P + (if i <? n mod P then 1 else 0)) shape P idx
         else acc) l d) = length P).
  { induction l as [|x l IH]; intros d Hd Hl; simpl; auto. inv Hl. apply IH; auto.
    destruct (zlist_eqb x w); auto. rewrite map3_length; lia. }
  apply G.
  - now rewrite map_length.
  - apply Forall_forall. intros i Hi. apply in_range_index in Hi. now apply valid_index_length.
Qed.

(** Unbalanced assembly returns every worker's local shape. *)
Lemma map2_add_zero_r l n : length l = n -> map2 Z.add l (repeat 0 n) = l.
Proof.
  revert n. induction l as [|x l IH]; intros [|n] H; try discriminate; auto.
  simpl. f_equal; [lia|]. apply IH. simpl in H; lia.
Qed.
Lemma map2_add_zero_l l n : length l = n -> map2 Z.add (repeat 0 n) l = l.
Proof.
  revert n. induction l as [|x l IH]; intros [|n] H; try discriminate; auto.
  simpl. f_equal. apply IH. simpl in H; lia.
Qed.

Lemma unbalanced_shapes_spec P loc w : valid_index P w ->
  (forall w, valid_index P w -> length (loc w) = length P) ->
  compute_subtensor_shapes_unbalanced P loc w = loc w.
Proof.
  intros Hw Hloc. unfold compute_subtensor_shapes_unbalanced.
  assert (Hin : In w (range_index P)) by now apply in_range_index.
  assert (Hall : forall i, In i (range_index P) -> length (loc i) = length P).
  { intros i Hi. apply Hloc. now apply in_range_index. }
  pose proof (range_index_nodup P) as HN.
  assert (Hno : forall l acc, ~ In w l -> length acc = length P ->
    fold_left (fun acc idx => map2 Z.add acc (own_shape_array (length P) idx (loc idx) w)) l acc = acc).
  { induction l as [|x l IH]; intros acc Hni Ha; simpl; auto.
    rewrite IH; [|simpl in Hni; tauto|].
    - unfold own_shape_array. destruct (zlist_eqb x w) eqn:E.
      + apply zlist_eqb_eq in E. simpl in Hni. tauto.
      + now apply map2_add_zero_r.
    - unfold own_shape_array. destruct (zlist_eqb x w) eqn:E.
      + apply zlist_eqb_eq in E. simpl in Hni. tauto.
      + now rewrite map2_add_zero_r. }
  revert Hin Hall HN. generalize (range_index P) as l. intros l Hin Hall HN.
  assert (Hlen : length (loc w) = length P) by auto.
  induction l as [|x l IH]; [easy|]. simpl. inv HN.
  destruct Hin as [->|Hin].
  - rewrite Hno; auto.
    + unfold own_shape_array. rewrite zlist_eqb_refl. now apply map2_add_zero_l.
    + unfold own_shape_array. rewrite zlist_eqb_refl. now rewrite map2_add_zero_l.
  - unfold own_shape_array at 2. destruct (zlist_eqb x w) eqn:E.
    + apply zlist_eqb_eq in E. subst. contradiction.
    + rewrite map2_add_zero_r by apply repeat_length. apply IH; auto.
      intros; apply Hall; now right.
Qed.
