(** The backward pass of the sliding-window layers: adjointness (C51), and the
    blocks of the sequential gradients (C52). *)

From Verif Require Import Prelude SpecIndex SpecLayout SpecPartition SpecHalo ModelSlicing ModelDecomposition
  ModelPartition ProofSlicing ProofDecomposition ProofPartition Ring Tensor ModelCollectives PropCollectives PropExchange
  ModelUtilities PropUtilities Blocks P2P Rounds ModelRepartition ProofTransfer PropRepartition ModelHaloMixin ProofHaloMixin PropHaloMixin
  ModelHaloExchange PropHaloExchange ModelFeatureLayer SpecFeature ProofFeatureLayer PropFeatureLayer
  PropFeatureConv PropFeatureCommon ModelGradients ProofGradients PropUpsampleGrad ModelFeatureGrad SpecFeatureGrad ProofFeatureGrad.
Local Open Scope Z_scope.

(** * C51 *)

Definition C51_statement : Prop :=
  forall (R : CRing) (world : list Z) (P : part) (L : layout) (w : window)
    (f : @kernel R) (cout : Z -> Z) (K : @coefficients R) (ny : list Z) (x dy : Z -> tensor R),
    feature_given world P L w -> linear_kernel w f cout K ->
    (* the layer has outputs *)
    counts (layout_shape L) (full_window (length L) w) ny -> Forall (fun n => 0 < n) ny ->
    (forall idx v, worker_at P idx v -> tshape (x v) = block_shape L idx) ->
    (forall v, In v world -> ~ In v (p_ranks P) -> tshape (dy v) = tshape (x v)) ->
    let shape v := tshape (x v) in
    let arg := halo_argument P w rzero shape x in
    let back := feature_back_argument P w K shape (fun v => tshape (arg v)) dy in
    let plan := halo_plan P w shape in
    let layer := history_rounds P (fun v => tshape (arg v)) (fun v => u_recv (plan v)) (fun v => u_send (plan v)) in
    (* nothing raises before the halo layer... *)
    (forall v, In v world -> halo_input P w rzero shape x v = Ok (arg v) /\
       feature_cotangent P w K shape (fun v => tshape (arg v)) dy v = Ok (back v)) /\
    (* ... whose exchange is safe (C27)... *)
    halo_safe R world P (fun v => tshape (arg v)) (fun v => u_recv (plan v)) (fun v => u_send (plan v)) /\
    (* ... and whenever the forward pass returns, whatever the histories and the
       interleavings of the two passes, the backward pass is its adjoint *)
    forall pre pre' init init' eager eager' gf gb (y : Z -> tensor R),
      same_calls P arg pre -> same_calls P arg pre' ->
      ends world (layer (pre ++ [HForward arg])) init eager gf ->
      ends world (layer (pre' ++ [HBackward back])) init' eager' gb ->
      (forall v, In v world -> feature_output P w f cout shape x (halo_result gf) v = Ok (y v) /\ tshape (y v) = tshape (dy v)) ->
      exists dx : Z -> tensor R,
        (forall v, In v world -> feature_gradient P w shape dy (halo_result gb) v = Ok (dx v) /\ tshape (dx v) = tshape (x v)) /\
        world_inner world y dy = world_inner world x dx.

Section Main.
  Context {R : CRing}.
  Variables (world : list Z) (P : part) (L : layout) (w : window).
  Hypothesis HG : feature_given world P L w.
  Variable ny : list Z.
  Hypothesis Hcnt : counts (layout_shape L) (full_window (length L) w) ny.
  Hypothesis Hny : Forall (fun n => 0 < n) ny.
  Variable shape : Z -> list Z.
  Hypothesis HS : forall idx v, worker_at P idx v -> shape v = block_shape L idx.
  (* the extents for which the halo layer was set up, and its plan *)
  Variables (sh : Z -> list Z) (recv send : Z -> list (Z * Z)).

  Let gp := 0 :: 0 :: w_padding w.
  Let Lp := pad_layout L gp.
  Let H := feature_halos L w.
  Hypothesis HP : planned P Lp H sh recv send.

  Lemma fg_part : part_ok P. Proof. apply HG. Qed.
  Lemma fg_ok : layout_ok L. Proof. apply HG. Qed.
  Lemma fg_workers : layout_workers L = p_shape P. Proof. apply HG. Qed.
  Lemma fg_window : window_ok (nf w) w. Proof. apply HG. Qed.
  Lemma fg_len : length L = S (S (nf w)).
  Proof. destruct HG as (_ & _ & _ & _ & E & E' & _). rewrite <- E, layout_workers_length in E'. exact E'. Qed.
  Lemma fg_shapes v idx : worker_at P idx v -> shape v = block_shape L idx.
  Proof. apply HS. Qed.

  Definition needed_of (idx : list Z) : list (Z * Z) := compute_needed_ranges (block_shape Lp idx) (signed_halos L w idx).
  Definition total_of (idx : list Z) : list (Z * Z) :=
    map2 (fun a b : Z * Z => (fst a + fst b, snd a + snd b)) (compute_local_padding (p_shape P) idx gp) (recv_plan H idx).
  Definition slice_of (idx : list Z) : list (Z * Z) := map2 py_slice (padded_shape Lp H idx) (needed_of idx).

  Lemma fg_setup idx v : worker_at P idx v ->
    feature_setup P w shape v =
    Ok (Some (mkfsetup (compute_local_padding (p_shape P) idx gp) (recv_plan H idx) (recv_plan H idx) (send_plan H idx) (needed_of idx))).
  Proof. intros Hv. exact (setup_ok P L w shape fg_part fg_ok fg_workers fg_len fg_window fg_shapes idx v Hv). Qed.

  Lemma fg_inactive v : ~ In v (p_ranks P) -> feature_setup P w shape v = Ok None.
  Proof. intros Hv. unfold feature_setup. apply index_in_none in Hv. now rewrite Hv. Qed.

  Lemma fg_given : halo_given world P Lp H.
  Proof.
    destruct HG as (A1 & A2 & A3 & A4 & A5 & A6 & A7). split; [auto|]. split; [auto|]. split; [auto|].
    split; [exact (Lp_ok P L w shape fg_ok fg_len fg_window fg_shapes)|]. split; [exact (Lp_workers P L w A5 fg_len fg_window)|].
    unfold H, feature_halos. apply layer_halos_ok.
  Qed.

  Lemma fg_fit : halos_fit Lp H.
  Proof.
    unfold H, feature_halos. apply layer_halos_fit.
    - exact (Lp_ok P L w shape fg_ok fg_len fg_window fg_shapes).
    - exact (fw_window P L w shape fg_len fg_window fg_shapes).
    - apply Forall_nth. intros j d Hj. rewrite compute_out_shape_length in Hj.
      rewrite (nth_indep _ d 0) by (now rewrite compute_out_shape_length). rewrite compute_out_shape_nth by auto.
      rewrite (fw_padding P L w shape fg_len fg_window fg_shapes).
      assert (Hj' : (j < length L)%nat) by (rewrite <- (Lp_length L w fg_len fg_window); exact Hj).
      pose proof (ny_dim P L w ny shape fg_part fg_workers fg_len fg_window Hcnt Hny fg_shapes j Hj') as [A B].
      cbv beta in B. unfold gp in *. rewrite B. lia.
  Qed.

  Section Local.
    Variable idx : list Z.
    Hypothesis Hi : valid_index (p_shape P) idx.

    Lemma fg_padded_len : length (padded_shape Lp H idx) = length L.
    Proof. exact (padded_len P L w fg_workers fg_len fg_window idx Hi). Qed.
    Lemma fg_needed_len : length (needed_of idx) = length L.
    Proof. exact (needed_len P L w fg_workers fg_len fg_window idx Hi). Qed.
    Lemma fg_slice_len : length (slice_of idx) = length L.
    Proof. unfold slice_of. rewrite map2_length; rewrite fg_padded_len; auto. now rewrite fg_needed_len. Qed.

    Lemma fg_padded_nonneg j : (j < length L)%nat -> 0 <= nth j (padded_shape Lp H idx) 0.
    Proof.
      intros Hj. pose proof (padded_at P L w shape fg_workers fg_len fg_window fg_shapes idx Hi j Hj) as E. cbv beta in E.
      unfold Lp, gp, H. rewrite E.
      assert (0 <= nth (Z.to_nat (nth j idx 0)) (nth j (pad_layout L (0 :: 0 :: w_padding w)) []) 0); [|lia].
      assert (HL : Forall (fun z => 0 <= z) (nth j (pad_layout L (0 :: 0 :: w_padding w)) [])).
      { apply ext_nth; [exact (Lp_ok P L w shape fg_ok fg_len fg_window fg_shapes)|].
        now rewrite (Lp_length L w fg_len fg_window). }
      destruct (nth_in_or_default (Z.to_nat (nth j idx 0)) (nth j (pad_layout L (0 :: 0 :: w_padding w)) []) 0) as [Hn|Hn]; [|lia].
      rewrite Forall_forall in HL. auto.
    Qed.

    Lemma fg_slice_in j : (j < length (slice_of idx))%nat ->
      0 <= fst (nth j (slice_of idx) (0, 0)) /\ snd (nth j (slice_of idx) (0, 0)) <= nth j (padded_shape Lp H idx) 0.
    Proof.
      rewrite fg_slice_len. intros Hj. pose proof (fg_padded_nonneg j Hj) as Hn. unfold slice_of.
      rewrite map2_nth with (da := 0) (db := (0, 0)) by (rewrite ?fg_padded_len, ?fg_needed_len; auto).
      pose proof (needed_at P L w fg_workers fg_len fg_window idx Hi j Hj) as E. fold gp Lp in E. fold (needed_of idx) in E.
      rewrite E. unfold py_slice. cbn [fst snd]. lia.
    Qed.

    (** [e]: any tensor of the extents of the padded one. *)
    Lemma fg_pad needed (x : tensor R) : tshape x = block_shape L idx ->
      exists t, feature_padded rzero (mkfsetup (compute_local_padding (p_shape P) idx gp) (recv_plan H idx) (recv_plan H idx) (send_plan H idx) needed) x = Ok t /\
        tshape t = padded_shape Lp H idx /\
        forall e : tensor R, tshape e = padded_shape Lp H idx ->
          exists d, pad_backward (total_of idx) e = Ok d /\ tshape d = block_shape L idx /\ inner t e = inner x d.
    Proof.
      intros Ex.
      destruct (padded_ok P L w ny shape fg_workers fg_len fg_window fg_shapes idx Hi rzero needed x Ex) as (t & E1 & E2 & _).
      exists t. split; [exact E1|]. split; [exact E2|]. intros e Se.
      destruct (pad_adjoint (total_of idx) x e) as (t' & d & F1 & F2 & F3 & F4).
      - rewrite Ex. rewrite block_shape_length by (exact (idx_length P L fg_workers idx Hi)).
        exact (total_len P L w fg_workers fg_len fg_window idx Hi).
      - apply Forall_forall. intros p Hp. apply In_nth with (d := (0, 0)) in Hp as (j & Hj & <-).
        assert (Hj' : (j < length L)%nat).
        { rewrite <- (total_len P L w fg_workers fg_len fg_window idx Hi). exact Hj. }
        pose proof (total_at P L w shape fg_workers fg_len fg_window fg_shapes idx Hi j Hj') as E.
        pose proof (pad_nonneg P L w ny shape fg_workers fg_len fg_window fg_shapes idx Hi j Hj') as N.
        cbv beta in E, N. unfold total_of, gp, H. rewrite E. cbn [fst snd]. lia.
      - rewrite Se, Ex. symmetry. exact (padded_sum P L w ny shape fg_workers fg_len fg_window fg_shapes idx Hi).
      - exists d. split; [exact F2|]. split; [congruence|].
        assert (E : Ok t = Ok t') by exact (eq_trans (eq_sym E1) F1). injection E as ->. exact F4.
    Qed.

    Definition local_back (K : @coefficients R) (dy : tensor R) : tensor R :=
      slice_backward (padded_shape Lp H idx) (slice_of idx) (sliding_backward K w (compute_nd_slice_shape (slice_of idx)) dy).

    Lemma fg_back_shape K dy : tshape (local_back K dy) = padded_shape Lp H idx.
    Proof.
      unfold local_back. pose proof (slice_adjoint (mkt (padded_shape Lp H idx) (fun _ => rzero))
        (sliding_backward K w (compute_nd_slice_shape (slice_of idx)) dy) (slice_of idx)) as [E _]; cbn [tshape]; auto.
      - now rewrite fg_slice_len, fg_padded_len.
      - exact fg_slice_in.
    Qed.

    Lemma fg_kernel K f cout (e y dy : tensor R) : linear_kernel w f cout K -> tshape e = padded_shape Lp H idx ->
      torch_sliding f cout w (slice_tensor e (needed_of idx)) = Ok y -> tshape dy = tshape y ->
      inner y dy = inner e (local_back K dy).
    Proof.
      intros HK Se Hy Hd. unfold slice_tensor in Hy. rewrite Se in Hy. fold (slice_of idx) in Hy.
      rewrite (sliding_adjoint K f cout w (read_slice e (slice_of idx)) y dy); auto; [|exact fg_window|].
      - cbn [read_slice tshape]. pose proof (slice_adjoint e (sliding_backward K w (compute_nd_slice_shape (slice_of idx)) dy) (slice_of idx)) as [_ E]; rewrite ?Se; auto.
        + now rewrite fg_slice_len, fg_padded_len.
        + exact fg_slice_in.
        + rewrite E. unfold local_back. now rewrite Se.
      - cbn [read_slice tshape]. rewrite slice_shape_len, fg_slice_len. exact fg_len.
    Qed.
  End Local.

  (** The halo exchange between, the workers outside the partition exchanging
      nothing. *)
  Lemma fg_exchange pre pre' (a bk : Z -> tensor R) init init' eager eager' gf gb :
    (forall idx v, worker_at P idx v -> tshape (a v) = padded_shape Lp H idx /\ tshape (bk v) = padded_shape Lp H idx) ->
    (forall v, In v world -> ~ In v (p_ranks P) -> tshape (a v) = tshape (bk v)) ->
    Forall (call_ok P Lp H) pre -> Forall (call_ok P Lp H) pre' ->
    ends world (history_rounds P sh recv send (pre ++ [HForward a])) init eager gf ->
    ends world (history_rounds P sh recv send (pre' ++ [HBackward bk])) init' eager' gb ->
    (forall v, In v world -> tshape (halo_result gf v) = tshape (a v) /\ tshape (halo_result gb v) = tshape (bk v)) /\
    (forall v, In v world -> ~ In v (p_ranks P) -> steq (halo_result gf v) (a v) /\ steq (halo_result gb v) (bk v)) /\
    world_inner world (halo_result gf) bk = world_inner world a (halo_result gb).
  Proof.
    intros HA HO Hp Hp' Hf Hb.
    destruct (C26_proof R world P Lp H sh recv send pre pre' a bk init init' eager eager' gf gb fg_given fg_fit HP) as [Sh Ad]; auto.
    - apply Forall_app. split; auto. constructor; [|constructor]. intros i v Hv. apply (HA i v Hv).
    - apply Forall_app. split; auto. constructor; [|constructor]. intros i v Hv. apply (HA i v Hv).
    - split; auto. split; auto. intros v Hv Hn. split.
      + exact (halo_inactive world P Lp H _ _ _ pre (HForward a) a init eager gf v (or_introl eq_refl) fg_given HP Hf Hv Hn).
      + exact (halo_inactive world P Lp H _ _ _ pre' (HBackward bk) bk init' eager' gb v (or_intror eq_refl) fg_given HP Hb Hv Hn).
  Qed.
End Main.

(** The layer's own argument and plan. *)
Section Own.
  Context {R : CRing}.
  Variables (world : list Z) (P : part) (L : layout) (w : window).
  Hypothesis HG : feature_given world P L w.
  Variable ny : list Z.
  Hypothesis Hcnt : counts (layout_shape L) (full_window (length L) w) ny.
  Hypothesis Hny : Forall (fun n => 0 < n) ny.
  Variable x : Z -> tensor R.
  Hypothesis HS : forall idx v, worker_at P idx v -> tshape (x v) = block_shape L idx.
  Let shape v := tshape (x v).
  Let arg := halo_argument P w rzero shape x.
  Let plan := halo_plan P w shape.
  Let gp := 0 :: 0 :: w_padding w.
  Let Lp := pad_layout L gp.
  Let H := feature_halos L w.

  Lemma ow_arg idx v : worker_at P idx v ->
    halo_input P w rzero shape x v = Ok (arg v) /\ tshape (arg v) = padded_shape Lp H idx /\
    forall e : tensor R, tshape e = padded_shape Lp H idx ->
      exists d, pad_backward (total_of P L w idx) e = Ok d /\ tshape d = tshape (x v) /\ inner (arg v) e = inner (x v) d.
  Proof.
    intros Hv. destruct (fg_pad world P L w HG ny shape HS idx (proj1 Hv) (needed_of L w idx) (x v) (HS idx v Hv)) as (t & E1 & E2 & E3).
    assert (EI : halo_input P w rzero shape x v = Ok t).
    { unfold halo_input. rewrite (fg_setup world P L w HG shape HS idx v Hv). cbn [rbind]. exact E1. }
    assert (EA : arg v = t) by (unfold arg, halo_argument; now rewrite EI). rewrite EA. split; auto. split; [exact E2|].
    intros e Se. destruct (E3 e Se) as (d & F1 & F2 & F3). exists d. split; auto. split; auto. rewrite F2. symmetry. now apply HS.
  Qed.

  Lemma ow_planned : planned P Lp H (fun v => tshape (arg v)) (fun v => u_recv (plan v)) (fun v => u_send (plan v)).
  Proof.
    intros idx v Hv. destruct (ow_arg idx v Hv) as (_ & E & _). unfold plan, halo_plan.
    rewrite (fg_setup world P L w HG shape HS idx v Hv). auto.
  Qed.

  Lemma ow_back (K : @coefficients R) (dy : Z -> tensor R) idx v : worker_at P idx v ->
    feature_cotangent P w K shape (fun v => tshape (arg v)) dy v = Ok (local_back L w idx K (dy v)).
  Proof.
    intros Hv. unfold feature_cotangent. rewrite (fg_setup world P L w HG shape HS idx v Hv). cbn [rbind u_needed].
    destruct (ow_arg idx v Hv) as (_ & E & _). now rewrite E.
  Qed.

  Lemma ow_calls pre : same_calls P arg pre -> Forall (call_ok P Lp H) pre.
  Proof.
    intros Hpre. eapply Forall_impl; [|exact Hpre]. intros cl Hcl i' v' Hv'. pose proof (Hcl v' (worker_at_In P i' v' Hv')) as E.
    pose proof (proj1 (proj2 (ow_arg i' v' Hv'))) as E'. cbv zeta. destruct cl; congruence.
  Qed.

  Lemma ow_start (K : @coefficients R) (dy : Z -> tensor R) : forall v, In v world -> halo_input P w rzero shape x v = Ok (arg v) /\
       feature_cotangent P w K shape (fun v => tshape (arg v)) dy v = Ok (feature_back_argument P w K shape (fun v => tshape (arg v)) dy v).
  Proof.
    intros v Hv. destruct (in_dec Z.eq_dec v (p_ranks P)) as [Hin|Hout].
    - destruct (worker_at_exists P v) as [idx Hi]; [apply HG|auto|]. split; [apply (ow_arg idx v Hi)|].
      unfold feature_back_argument. now rewrite (ow_back K dy idx v Hi).
    - pose proof (fg_inactive P w shape v Hout) as E. unfold feature_back_argument, feature_cotangent, arg, halo_argument, halo_input.
      rewrite E. auto.
  Qed.

  Lemma ow_back_arg (K : @coefficients R) (dy : Z -> tensor R) idx v : worker_at P idx v ->
    feature_back_argument P w K shape (fun v => tshape (arg v)) dy v = local_back L w idx K (dy v).
  Proof. intros Hv. unfold feature_back_argument. now rewrite (ow_back K dy idx v Hv). Qed.

  Lemma ow_gradient (dy : Z -> tensor R) (bk : Z -> tensor R) idx v : worker_at P idx v ->
    feature_gradient P w shape dy bk v = pad_backward (total_of P L w idx) (bk v).
  Proof. intros Hv. unfold feature_gradient. now rewrite (fg_setup world P L w HG shape HS idx v Hv). Qed.
End Own.

(** The two passes, whatever plan of these extents they follow. *)
Section Passes.
  Context {R : CRing}.
  Variables (world : list Z) (P : part) (L : layout) (w : window).
  Hypothesis HG : feature_given world P L w.
  Variable ny : list Z.
  Hypothesis Hcnt : counts (layout_shape L) (full_window (length L) w) ny.
  Hypothesis Hny : Forall (fun n => 0 < n) ny.
  (* every worker has its copy of the layer *)
  Variables (f : Z -> @kernel R) (cout : Z -> Z) (K : Z -> @coefficients R).
  Hypothesis HK : forall v, In v (p_ranks P) -> linear_kernel w (f v) cout (K v).
  Variables (x dy back : Z -> tensor R).
  Hypothesis HS : forall idx v, worker_at P idx v -> tshape (x v) = block_shape L idx.
  Hypothesis HO : forall v, In v world -> ~ In v (p_ranks P) -> tshape (dy v) = tshape (x v).
  Let shape v := tshape (x v).
  Let arg := halo_argument P w rzero shape x.
  Let gp := 0 :: 0 :: w_padding w.
  Let Lp := pad_layout L gp.
  Let H := feature_halos L w.
  Variables (sh : Z -> list Z) (recv send : Z -> list (Z * Z)).
  Hypothesis HP : planned P Lp H sh recv send.
  Hypothesis HB : forall idx v, worker_at P idx v -> back v = local_back L w idx (K v) (dy v).
  Hypothesis HBi : forall v, ~ In v (p_ranks P) -> back v = dy v.

  Lemma passes_adjoint pre pre' init init' eager eager' gf gb (y : Z -> tensor R) :
    Forall (call_ok P Lp H) pre -> Forall (call_ok P Lp H) pre' ->
    ends world (history_rounds P sh recv send (pre ++ [HForward arg])) init eager gf ->
    ends world (history_rounds P sh recv send (pre' ++ [HBackward back])) init' eager' gb ->
    (forall v, In v world -> feature_output P w (f v) cout shape x (halo_result gf) v = Ok (y v) /\ tshape (y v) = tshape (dy v)) ->
    exists dx : Z -> tensor R,
      (forall v, In v world -> feature_gradient P w shape dy (halo_result gb) v = Ok (dx v) /\ tshape (dx v) = tshape (x v)) /\
      world_inner world y dy = world_inner world x dx.
  Proof.
    intros Hp Hp' Hf Hb Hy.
    assert (HAi : forall v, ~ In v (p_ranks P) -> arg v = x v).
    { intros v Hv. unfold arg, halo_argument, halo_input. pose proof (fg_inactive P w shape v Hv) as E. rewrite E. reflexivity. }
    destruct (fg_exchange world P L w HG ny Hcnt Hny shape HS _ _ _ HP pre pre' arg back init init' eager eager' gf gb)
      as (Sh & St & Ad); auto.
    - intros idx v Hv. split; [exact (proj1 (proj2 (ow_arg world P L w HG ny x HS idx v Hv)))|].
      rewrite (HB idx v Hv). apply (fg_back_shape world P L w HG shape HS idx (proj1 Hv)).
    - intros v Hv Hn. rewrite HAi, HBi by auto. symmetry. auto.
    - set (dx := fun v => match feature_gradient P w shape dy (halo_result gb) v with Ok t => t | Raise _ => x v end).
      exists dx.
      assert (Kv : forall v, In v world ->
        (feature_gradient P w shape dy (halo_result gb) v = Ok (dx v) /\ tshape (dx v) = tshape (x v)) /\
        inner (y v) (dy v) = inner (halo_result gf v) (back v) /\ inner (x v) (dx v) = inner (arg v) (halo_result gb v)).
      { intros v Hv. destruct (Sh v Hv) as [Sf Sb]. destruct (Hy v Hv) as [Ey Sy].
        destruct (in_dec Z.eq_dec v (p_ranks P)) as [Hin|Hout].
        - destruct (worker_at_exists P v) as [idx Hw]; [apply HG|auto|]. pose proof (proj1 Hw) as Hi.
          destruct (ow_arg world P L w HG ny x HS idx v Hw) as (_ & Sa & Pa). fold shape arg in Sa, Pa.
          destruct (Pa (halo_result gb v)) as (d & Ed & Sd & Id).
          { rewrite Sb, (HB idx v Hw). apply (fg_back_shape world P L w HG shape HS idx Hi). }
          assert (Eg : feature_gradient P w shape dy (halo_result gb) v = Ok d).
          { unfold shape. rewrite (ow_gradient world P L w HG x HS dy (halo_result gb) idx v Hw). exact Ed. }
          unfold dx. rewrite Eg. split; [split; auto|]. split; auto.
          rewrite (HB idx v Hw). apply (fg_kernel world P L w HG shape HS idx Hi (K v) (f v) cout); auto; [now rewrite Sf|].
          unfold feature_output in Ey. rewrite (fg_setup world P L w HG shape HS idx v Hw) in Ey. exact Ey.
        - pose proof (fg_inactive P w shape v Hout) as E. destruct (St v Hv Hout) as [[F1 F2] [B1 B2]].
          rewrite HAi, HBi in * by auto.
          assert (Eg : feature_gradient P w shape dy (halo_result gb) v = Ok (dy v)) by (unfold feature_gradient; rewrite E; reflexivity).
          unfold feature_output in Ey. rewrite E in Ey. injection Ey as Ey. rewrite <- Ey.
          unfold dx. rewrite Eg. split; [split; auto|]. unfold inner. rewrite F1. split; apply sumf_ext; intros i _; congruence. }
      split; [intros v Hv; apply Kv; auto|].
      unfold world_inner in *. transitivity (sumf world (fun v => inner (halo_result gf v) (back v))).
      + apply sumf_ext. intros v Hv. apply Kv; auto.
      + rewrite Ad. apply sumf_ext. intros v Hv. symmetry. apply Kv; auto.
  Qed.
End Passes.

Lemma back_inactive {R : CRing} P w (K : @coefficients R) shape padded (dy : Z -> tensor R) v :
  ~ In v (p_ranks P) -> feature_back_argument P w K shape padded dy v = dy v.
Proof. intros Hv. unfold feature_back_argument, feature_cotangent. pose proof (fg_inactive P w shape v Hv) as E. rewrite E. reflexivity. Qed.

Lemma C51_proof : C51_statement.
Proof.
  intros R world P L w f cout K ny x dy HG HK Hcnt Hny HS HO shape arg back plan layer.
  split; [exact (ow_start world P L w HG ny x HS K dy)|].
  split; [exact (given_safe R _ _ _ _ _ _ _ (fg_given world P L w HG shape HS) (ow_planned world P L w HG ny x HS))|].
  intros pre pre' init init' eager eager' gf gb y Hp Hp' Hf Hb Hy.
  apply (passes_adjoint world P L w HG ny Hcnt Hny (fun _ => f) cout (fun _ => K) (fun _ _ => HK) x dy back HS HO _ _ _ (ow_planned world P L w HG ny x HS)
    (ow_back_arg world P L w HG ny x HS K dy) (fun v Hv => back_inactive P w K shape _ dy v Hv)
    pre pre' init init' eager eager' gf gb y); auto.
  - exact (ow_calls world P L w HG ny x HS pre Hp).
  - exact (ow_calls world P L w HG ny x HS pre' Hp').
Qed.

Theorem C51_feature_adjoint : C51_statement.
Proof. exact C51_proof. Qed.

Lemma add_zero_r {R : CRing} (a : R) : radd a rzero = a.
Proof. rewrite (Radd_comm (rth R)). apply (Radd_0_l (rth R)). Qed.

(** The layers that are linear: convolution without bias (which does not matter for
    the gradient of the input) and average pooling. *)
Theorem C51_convolution_kernels (R : CRing) w cout groups (weight : tensor R) :
  0 < cout -> 0 < groups -> (groups | cout) ->
  linear_kernel w (conv_kernel w cout groups weight None) (fun _ => cout) (conv_coefficients cout groups weight).
Proof.
  intros H1 H2 H3 cin c' g Hc. unfold conv_kernel, conv_coefficients. cbv zeta.
  set (cpg := cin / groups). set (first := c' / (cout / groups) * cpg).
  assert (Hr : forall j, In j (zrange cpg) -> 0 <= first + j < cin).
  { intros j Hj. apply in_zrange in Hj. now apply group_channel. }
  rewrite (sum_world (zrange cin) (map (fun j => first + j) (zrange cpg))).
  - rewrite sumf_map. rewrite (add_zero_r _).
    apply sumf_ext. intros j Hj. apply in_zrange in Hj. apply sumf_ext. intros t _.
    rewrite (proj2 (Z.leb_le _ _)) by lia. rewrite (proj2 (Z.ltb_lt _ _)) by lia. cbn [andb]. do 5 f_equal. lia.
  - apply zrange_nodup.
  - apply FinFun.Injective_map_NoDup; [|apply zrange_nodup]. intros i i' E. lia.
  - intros ch Hch. apply in_map_iff in Hch as (j & <- & Hj). apply in_zrange. auto.
  - intros ch Hch Hn. apply sumf_zero. intros t _. destruct (andb _ _) eqn:E; [|apply mul_zero_l].
    exfalso. apply Hn. apply andb_true_iff in E as [E1 E2]. apply Z.leb_le in E1. apply Z.ltb_lt in E2.
    apply in_map_iff. exists (ch - first). split; [lia|apply in_zrange; lia].
Qed.

Theorem C51_average_kernels (R : CRing) w (a : R) :
  linear_kernel w (pool_kernel (fun g => rmul a (sumf (indices (w_kernel w)) g))) (fun c => c) (mean_coefficients a).
Proof.
  intros cin c' g Hc. unfold pool_kernel, mean_coefficients. rewrite (sumf_single (zrange cin) _ c').
  - rewrite Z.eqb_refl. symmetry. apply sumf_mul_l.
  - apply zrange_nodup.
  - now apply in_zrange.
  - intros ch _ Hn. apply sumf_zero. intros t _. destruct (Z.eqb_spec c' ch); [congruence|]. apply mul_zero_l.
Qed.

(** The convolution of [C30_convolutions_example] without its bias; worker 9 takes
    no part.  [fx_run] is one possible execution of the halo layer. *)
Definition fx_dY : tensor Zring := @mkt Zring [1; 2; 10] (fun i => nth 2 i 0 - 4 + 3 * nth 1 i 0).
Definition fx_dy (v : Z) : tensor Zring := if v =? 9 then cv_x 9 else block cv_L [0; 0; v - 10] fx_dY.
Definition fx_f : @kernel Zring := conv_kernel cv_w 2 1 (cv_weight 10) None.
Definition fx_K : @coefficients Zring := conv_coefficients 2 1 (cv_weight 10).
Definition fx_back : Z -> tensor Zring := feature_back_argument cv_P cv_w fx_K cv_shape (fun v => tshape (cv_arg v)) fx_dy.
Definition fx_run (c : @call Zring) (v : Z) : tensor Zring :=
  last (h_hist (sync_rounds (history_rounds cv_P (fun v => tshape (cv_arg v)) (fun v => u_recv (cv_plan v))
                               (fun v => u_send (cv_plan v)) [c]) cv_zero v)) (@mkt Zring [] (fun _ => 0)).
Definition fx_y (v : Z) : tensor Zring := val (feature_output cv_P cv_w fx_f (fun _ => 2) cv_shape cv_x (fx_run (HForward cv_arg)) v).
Definition fx_dx (v : Z) : tensor Zring := val (feature_gradient cv_P cv_w cv_shape fx_dy (fx_run (HBackward fx_back)) v).

Example C51_example :
  feature_given cv_world cv_P cv_L cv_w /\ linear_kernel cv_w fx_f (fun _ => 2) fx_K /\
  counts (layout_shape cv_L) (full_window (length cv_L) cv_w) [1; 2; 10] /\
  (forall idx v, worker_at cv_P idx v -> tshape (cv_x v) = block_shape cv_L idx) /\
  (forall v, In v cv_world -> ~ In v (p_ranks cv_P) -> tshape (fx_dy v) = tshape (cv_x v)) /\
  map (fun v => tshape (fx_y v)) cv_world = map (fun v => tshape (fx_dy v)) cv_world /\
  map (fun v => map (tat (fx_dx v)) (indices (tshape (fx_dx v)))) [10; 11] =
    [[-15; -22; -4; 14; -7; -13; -1; 11]; [32; 50; 68; 23; 35; 47]] /\
  world_inner cv_world fx_y fx_dy = 67499 /\ world_inner cv_world cv_x fx_dx = 67499.
Proof.
  split; [apply C30_convolutions_example|].
  split; [apply (C51_convolution_kernels Zring cv_w 2 1 (cv_weight 10)); [lia|lia|exists 2; lia]|].
  split.
  { split; [reflexivity|]. intros [|[|[|j]]] Hj; cbn in Hj; try lia; cbn; (split; [lia|]); unfold window_fits; intros; lia. }
  split; [intros idx v Hv; destruct (cv_workers _ _ Hv) as [-> [-> |[-> | ->]]]; reflexivity|].
  split; [intros v Hv Hn; cbn in Hv; destruct Hv as [<-|[<-|[<-|[<-|[]]]]]; cbn in Hn; intuition reflexivity|].
  repeat split; vm_compute; reflexivity.
Qed.

(** * C52: the blocks of the sequential gradient

    By adjointness for the tensors with a single one, C30 giving the output. *)
Lemma linear_local {R : CRing} w (f : @kernel R) cout K : linear_kernel w f cout K -> kernel_local w f cout.
Proof.
  intros HK c c' g g' E Hc. rewrite !HK by auto. apply sumf_ext. intros ch Hch. apply in_zrange in Hch.
  apply sumf_ext. intros t Ht. apply in_indices in Ht. now rewrite E.
Qed.

Lemma block_ext {R : CRing} (P : part) (L : layout) (D E : tensor R) idx v :
  layout_ok L -> layout_workers L = p_shape P -> worker_at P idx v -> tshape D = layout_shape L -> teq D E ->
  teq (block L idx D) (block L idx E).
Proof.
  intros HL HW Hv ED [_ V]. split; [reflexivity|]. cbn [block tshape tat]. intros p Hp. apply V. rewrite ED.
  assert (Hi : valid_index (layout_workers L) idx) by (rewrite HW; apply Hv).
  eapply layout_tiles_inside; eauto using point_in_block.
Qed.

Section Blocks.
  Context {R : CRing}.
  Add Ring R_ring : (rth R).
  Variables (world : list Z) (P : part) (L : layout) (w : window).
  Hypothesis HG : feature_given world P L w.
  (* the layer, and the copy of every worker *)
  Variables (f : @kernel R) (fs : Z -> @kernel R) (cout : Z -> Z) (K : @coefficients R) (Ks : Z -> @coefficients R).
  Hypothesis HK : linear_kernel w f cout K.
  Hypothesis HKs : forall v, In v (p_ranks P) -> linear_kernel w (fs v) cout (Ks v).
  Variables (b c : Z) (xs ys : list Z).
  Hypothesis HE : forall v c' g, In v (p_ranks P) -> 0 <= c' < cout c -> fs v c c' g = f c c' g.
  Hypothesis HC : forall v, In v (p_ranks P) -> nth 1 (p_shape P) 0 = 1 \/ per_channel (fs v) cout.
  Hypothesis EL : layout_shape L = b :: c :: xs.
  Let out := b :: cout c :: ys.
  Hypothesis Hcnt : counts xs w ys.
  Hypothesis Hb : 0 < b.
  Hypothesis Hc0 : 0 < c.
  Hypothesis Hout : 0 <= cout c.
  Hypothesis Hys : Forall (fun n => 0 < n) ys.
  Let ny := b :: c :: ys.
  Hypothesis Hin : within L w ny.
  Variables (x dy back : Z -> tensor R) (dY : tensor R).
  Hypothesis HS : forall idx v, worker_at P idx v -> tshape (x v) = block_shape L idx.
  Hypothesis HO : forall v, In v world -> ~ In v (p_ranks P) -> tshape (dy v) = tshape (x v).
  Hypothesis ED : tshape dY = out.
  Hypothesis HD : holds_blocks P (balanced out (p_shape P)) dY dy.
  Let shape v := tshape (x v).
  Let gp := 0 :: 0 :: w_padding w.
  Let Lp := pad_layout L gp.
  Let H := feature_halos L w.
  Variables (sh : Z -> list Z) (recv send : Z -> list (Z * Z)).
  Hypothesis HP : planned P Lp H sh recv send.
  Hypothesis HB : forall idx v, worker_at P idx v -> back v = local_back L w idx (Ks v) (dy v).
  Hypothesis HBi : forall v, ~ In v (p_ranks P) -> back v = dy v.
  Variables (pre' : list (@call R)) (init' : Z -> @hst R) (eager' : Z -> Z -> Z -> nat -> bool) (gb : @gst (@hst R) (tensor R)).
  Hypothesis Hp' : Forall (call_ok P Lp H) pre'.
  Hypothesis Hb' : ends world (history_rounds P sh recv send (pre' ++ [HBackward back])) init' eager' gb.

  (** The layer on a tensor [X]. *)
  Definition held (X : tensor R) (v : Z) : tensor R :=
    mkt (tshape (x v)) (fun i => match index_in P v with Some idx => tat (block L idx X) i | None => rzero end).
  Definition sequential (X : tensor R) : tensor R :=
    mkt out (fun i => match i with
      | b' :: c' :: o => f c c' (fun ch t => value_at X rzero (b' :: ch :: seen_point (length xs) w o t))
      | _ => rzero
      end).

  Lemma held_blocks X : tshape X = b :: c :: xs -> holds_blocks P L X (held X).
  Proof.
    intros EX. split; [congruence|]. intros idx v Hv. split; [exact (HS idx v Hv)|]. intros p _. cbn [held tat].
    apply index_in_spec in Hv; [|apply HG]. now rewrite Hv.
  Qed.

  Lemma is_seq X (f' : @kernel R) : tshape X = b :: c :: xs -> (forall c' g, 0 <= c' < cout c -> f' c c' g = f c c' g) ->
    is_sequential f' cout rzero w X (sequential X).
  Proof.
    intros EX Ef. exists b, c, xs, ys. split; [auto|]. split; [reflexivity|]. do 4 (split; [auto|]).
    intros b' c' o Ho. cbn [sequential tat]. symmetry. apply Ef. cbn [sequential tshape] in Ho. unfold out in Ho.
    apply valid_index_cons in Ho as [_ Ho]. now apply valid_index_cons in Ho as [Ho _].
  Qed.

  Lemma bl_counts : counts (layout_shape L) (full_window (length L) w) ny.
  Proof.
    set (Z0 := mkt (b :: c :: xs) (fun _ => rzero) : tensor R).
    destruct (is_seq Z0 f eq_refl (fun c' g _ => eq_refl)) as (b0 & c0 & xs0 & ys0 & E1 & E2 & C0 & P1 & P2 & P3 & V0).
    cbn [sequential Z0 tshape] in E1, E2. unfold out in E2. injection E1 as <- <- <-. injection E2 as <-.
    exact (g_counts world P L w f rzero Z0 (sequential Z0) (held Z0) HG b c xs ys eq_refl C0 P1 P2 V0 (held_blocks Z0 eq_refl)).
  Qed.

  Lemma out_ok : layout_ok (balanced out (p_shape P)) /\ layout_workers (balanced out (p_shape P)) = p_shape P.
  Proof.
    assert (HPp : part_ok P) by apply HG. destruct HPp as (_ & _ & Hpos & _). split.
    - apply balanced_ok; auto. unfold out. constructor; [lia|]. constructor; [lia|]. eapply Forall_impl; [|exact Hys]. cbn. lia.
    - apply balanced_workers; auto. unfold out. cbn [length]. destruct Hcnt as [El _]. rewrite El.
      destruct HG as (_ & _ & _ & _ & HW & Hl & _). rewrite <- HW, layout_workers_length.
      rewrite <- (layout_shape_length L), EL. reflexivity.
  Qed.

  Definition grad_of (v : Z) : tensor R := match feature_gradient P w shape dy (halo_result gb) v with Ok t => t | Raise _ => x v end.

  (** Both sides paired with [X]. *)
  Lemma pairing (X : tensor R) : tshape X = b :: c :: xs ->
    (forall v, In v world -> feature_gradient P w shape dy (halo_result gb) v = Ok (grad_of v) /\ tshape (grad_of v) = tshape (x v)) /\
    sumf (p_ranks P) (fun v => inner (held X v) (grad_of v)) = inner (sequential X) dY.
  Proof.
    intros EX. destruct HG as (HN & HW & HPo & HLo & HWo & _).
    set (arg' := halo_argument P w rzero (fun v => tshape (held X v)) (held X)).
    destruct (async_ends _ _ _ _ (fun _ _ _ _ => true) (halo_async world P Lp H sh recv send
       (fg_given world P L w HG shape HS) HP [HForward arg'] (fun _ => mkhst (tzeros []) (tzeros []) (tzeros []) []))) as [gf Hf].
    pose proof (held_blocks X EX) as HB'.
    assert (Oy : forall idx v, worker_at P idx v -> exists t,
      feature_output P w (fs v) cout shape (held X) (halo_result gf) v = Ok t /\ teq t (block (balanced out (p_shape P)) idx (sequential X))).
    { intros idx v Hv. pose proof (worker_at_In _ _ _ Hv) as Hr.
      pose proof (is_seq X (fs v) EX (fun c' g => HE v c' g Hr)) as (b0 & c0 & xs0 & ys0 & E1 & E2 & C0 & P1 & P2 & P3 & V0).
      pose proof E1 as E1'. pose proof E2 as E2'. rewrite EX in E1'. cbn [sequential tshape] in E2'. unfold out in E2'.
      injection E1' as <- <- <-. injection E2' as <-.
      exact (output_by world P L w (fs v) cout rzero X (sequential X) (held X) HG (linear_local _ _ _ _ (HKs v Hr)) (HC v Hr)
               b c xs ys E1 E2 C0 P1 P2 P3 V0 HB' Hin sh recv send [] _ _ gf idx v HP (Forall_nil _) Hf Hv). }
    set (y := fun v => match feature_output P w (fs v) cout shape (held X) (halo_result gf) v with Ok t => t | Raise _ => x v end).
    assert (Hy : forall v, In v world ->
      feature_output P w (fs v) cout shape (held X) (halo_result gf) v = Ok (y v) /\ tshape (y v) = tshape (dy v)).
    { intros v Hv. destruct (in_dec Z.eq_dec v (p_ranks P)) as [Hr|Hr].
      - destruct (worker_at_exists P v HPo Hr) as [idx Hi]. destruct (Oy idx v Hi) as (t & Et & Tt & _). unfold y. rewrite Et.
        split; auto. destruct HD as [_ HD']. destruct (HD' idx v Hi) as [-> _]. exact Tt.
      - pose proof (fg_inactive P w shape v Hr) as E. unfold y, feature_output. rewrite E. cbn [rbind]. split; auto.
        cbn [held tshape]. symmetry. auto. }
    destruct (passes_adjoint world P L w HG ny bl_counts (g_ny b c ys Hb Hc0 Hys) fs cout Ks HKs (held X) dy back HS HO sh recv send HP HB HBi
                [] pre' _ init' _ eager' gf gb y (Forall_nil _) Hp' Hf Hb' Hy) as (dx & Hdx & Ad).
    assert (Eg : forall v, In v world -> grad_of v = dx v).
    { intros v Hv. destruct (Hdx v Hv) as [E _]. unfold grad_of. 
      assert (E' : feature_gradient P w shape dy (halo_result gb) v = Ok (dx v)) by exact E. now rewrite E'. }
    split.
    { intros v Hv. rewrite (Eg v Hv). exact (Hdx v Hv). }
    assert (Hy' : holds_blocks P (balanced out (p_shape P)) (sequential X) y).
    { split; [cbn [sequential tshape]; exact (eq_trans (eq_sym ED) (proj1 HD))|]. intros idx v Hv.
      destruct (Oy idx v Hv) as (t & Et & Tt). unfold y. now rewrite Et. }
    destruct out_ok as [O1 O2].
    rewrite <- (inner_members P (balanced out (p_shape P)) (sequential X) dY y dy HPo O1 O2 Hy' HD).
    transitivity (world_inner world (held X) dx).
    - unfold world_inner. rewrite (sum_world world (p_ranks P)); auto; [|apply HPo|].
      + apply sumf_ext. intros v Hv. now rewrite Eg by auto.
      + intros v Hv Hr. unfold inner. apply sumf_zero. intros i _. cbn [held tat]. apply index_in_none in Hr. rewrite Hr. ring.
    - rewrite <- Ad. unfold world_inner. rewrite (sum_world world (p_ranks P)); auto; [apply HPo|].
      intros v Hv Hr. unfold inner. apply sumf_zero. intros i _. unfold y, feature_output.
      pose proof (fg_inactive P w shape v Hr) as E. rewrite E. cbn [rbind held tat]. apply index_in_none in Hr. rewrite Hr. ring.
  Qed.

  Lemma gradient_blocks idx v : worker_at P idx v ->
    exists t, feature_gradient P w shape dy (halo_result gb) v = Ok t /\
              teq t (block L idx (input_gradient K w (b :: c :: xs) dY)).
  Proof.
    intros Hv. destruct HG as (HN & HW & HPo & HLo & HWo & _).
    destruct (pairing (mkt (b :: c :: xs) (fun _ => rzero)) eq_refl) as [Hd _].
    destruct (glue_holds P L grad_of HPo HLo HWo) as [D HDg].
    { intros i u Hu. rewrite (proj2 (Hd u (HW u (worker_at_In _ _ _ Hu)))). exact (HS i u Hu). }
    assert (E : teq D (input_gradient K w (b :: c :: xs) dY)).
    { pose proof HDg as [SD _]. split; [rewrite SD; exact EL|]. intros q Hq. rewrite SD, EL in Hq.
      rewrite <- (unit_inner (b :: c :: xs) q D Hq).
      rewrite <- (inner_members P L (unit_at (b :: c :: xs) q) D _ _ HPo HLo HWo (held_blocks (unit_at (b :: c :: xs) q) eq_refl) HDg).
      rewrite (proj2 (pairing (unit_at (b :: c :: xs) q) eq_refl)).
      rewrite (sequential_adjoint K f cout w (unit_at (b :: c :: xs) q) (sequential (unit_at (b :: c :: xs) q)) dY HK); auto.
      - rewrite unit_inner; auto.
      - apply is_seq; auto. }
    exists (grad_of v). split; [apply Hd; apply HW; now apply worker_at_In in Hv|].
    destruct HDg as [SD HDg]. eapply teq_trans; [apply HDg; exact Hv|]. eapply block_ext; eauto.
  Qed.
End Blocks.

(** The workers outside the partition do not matter. *)
Lemma gradient_blocks_any {R : CRing} world P L w (HG : feature_given world P L w)
    (f : @kernel R) (fs : Z -> @kernel R) (cout : Z -> Z) (K : @coefficients R) (Ks : Z -> @coefficients R)
    (HK : linear_kernel w f cout K) (HKs : forall v, In v (p_ranks P) -> linear_kernel w (fs v) cout (Ks v)) (b c : Z) (xs ys : list Z)
    (HE : forall v c' g, In v (p_ranks P) -> 0 <= c' < cout c -> fs v c c' g = f c c' g)
    (HC : forall v, In v (p_ranks P) -> nth 1 (p_shape P) 0 = 1 \/ per_channel (fs v) cout)
    (EL : layout_shape L = b :: c :: xs) (Hcnt : counts xs w ys) (Hb : 0 < b) (Hc0 : 0 < c) (Hout : 0 <= cout c)
    (Hys : Forall (fun n => 0 < n) ys) (Hin : within L w (b :: c :: ys)) (x dy back : Z -> tensor R) (dY : tensor R)
    (HS : forall idx v, worker_at P idx v -> tshape (x v) = block_shape L idx)
    (ED : tshape dY = b :: cout c :: ys) (HD : holds_blocks P (balanced (b :: cout c :: ys) (p_shape P)) dY dy)
    (sh : Z -> list Z) (recv send : Z -> list (Z * Z))
    (HP : planned P (pad_layout L (0 :: 0 :: w_padding w)) (feature_halos L w) sh recv send)
    (HB : forall idx v, worker_at P idx v -> back v = local_back L w idx (Ks v) (dy v))
    (HBi : forall v, ~ In v (p_ranks P) -> back v = dy v)
    (pre' : list (@call R)) (init' : Z -> @hst R) (eager' : Z -> Z -> Z -> nat -> bool) (gb : @gst (@hst R) (tensor R)) :
  Forall (call_ok P (pad_layout L (0 :: 0 :: w_padding w)) (feature_halos L w)) pre' ->
  ends world (history_rounds P sh recv send (pre' ++ [HBackward back])) init' eager' gb ->
  forall idx v, worker_at P idx v ->
  exists t, feature_gradient P w (fun v => tshape (x v)) dy (halo_result gb) v = Ok t /\
            teq t (block L idx (input_gradient K w (b :: c :: xs) dY)).
Proof.
  intros Hp' Hb' idx v Hv. set (x' := fun v => if is_active (p_ranks P) v then x v else dy v).
  assert (HS' : forall idx v, worker_at P idx v -> tshape (x' v) = block_shape L idx).
  { intros i u Hu. unfold x'. rewrite (proj2 (is_active_spec _ _) (worker_at_In _ _ _ Hu)). now apply HS. }
  assert (HO' : forall v, In v world -> ~ In v (p_ranks P) -> tshape (dy v) = tshape (x' v)).
  { intros u _ Hu. unfold x'. apply is_active_false in Hu. now rewrite Hu. }
  rewrite (ow_gradient world P L w HG x HS dy (halo_result gb) idx v Hv).
  rewrite <- (ow_gradient world P L w HG x' HS' dy (halo_result gb) idx v Hv).
  exact (gradient_blocks world P L w HG f fs cout K Ks HK HKs b c xs ys HE HC EL Hcnt Hb Hc0 Hout Hys Hin x' dy back dY HS' HO' ED HD
    sh recv send HP HB HBi pre' init' eager' gb Hp' Hb' idx v Hv).
Qed.


Definition C52_statement : Prop :=
  forall (R : CRing) (world : list Z) (P : part) (L : layout) (w : window)
    (f : @kernel R) (cout : Z -> Z) (K : @coefficients R) (G Y dY : tensor R) (x dy : Z -> tensor R),
    feature_given world P L w -> linear_kernel w f cout K -> nth 1 (p_shape P) 0 = 1 \/ per_channel f cout ->
    (* the layer as in C30, on blocks of G; the cotangents are blocks of dY *)
    is_sequential f cout rzero w G Y -> nonneg_shape (tshape Y) -> within L w (out_counts G Y) ->
    tshape G = layout_shape L -> (forall idx v, worker_at P idx v -> tshape (x v) = block_shape L idx) ->
    tshape dY = tshape Y -> holds_blocks P (balanced (tshape Y) (p_shape P)) dY dy ->
    let shape v := tshape (x v) in
    let arg := halo_argument P w rzero shape x in
    let back := feature_back_argument P w K shape (fun v => tshape (arg v)) dy in
    let plan := halo_plan P w shape in
    let layer := history_rounds P (fun v => tshape (arg v)) (fun v => u_recv (plan v)) (fun v => u_send (plan v)) in
    (forall v, In v world -> feature_cotangent P w K shape (fun v => tshape (arg v)) dy v = Ok (back v)) /\
    halo_safe R world P (fun v => tshape (arg v)) (fun v => u_recv (plan v)) (fun v => u_send (plan v)) /\
    forall pre init eager gb, same_calls P arg pre -> ends world (layer (pre ++ [HBackward back])) init eager gb ->
      (forall idx v, worker_at P idx v ->
         exists t, feature_gradient P w shape dy (halo_result gb) v = Ok t /\
                   teq t (block L idx (input_gradient K w (tshape G) dY))) /\
      (forall v, In v world -> ~ In v (p_ranks P) -> feature_gradient P w shape dy (halo_result gb) v = Ok (dy v)).

Lemma C52_proof : C52_statement.
Proof.
  intros R world P L w f cout K G Y dY x dy HG HK HC (b & c & xs & ys & EG & EY & Hcnt & Hb & Hc0 & Hys & _) HN Hin SG HS ED HD
    shape arg back plan layer.
  split; [intros v Hv; exact (proj2 (ow_start world P L w HG (b :: c :: ys) x HS K dy v Hv))|].
  split; [exact (given_safe R _ _ _ _ _ _ _ (fg_given world P L w HG shape HS) (ow_planned world P L w HG (b :: c :: ys) x HS))|].
  intros pre init eager gb Hpre Hend.
  unfold out_counts in Hin. rewrite EG, EY in Hin. cbn [nth skipn] in Hin.
  split.
  - intros idx v Hv. rewrite EG. rewrite EY in ED, HD, HN.
    assert (Hout : 0 <= cout c) by (inversion HN as [|? ? _ HN']; now inversion HN').
    exact (gradient_blocks_any world P L w HG f (fun _ => f) cout K (fun _ => K) HK (fun _ _ => HK) b c xs ys
      (fun _ _ _ _ _ => eq_refl) (fun _ _ => HC) (eq_trans (eq_sym SG) EG) Hcnt Hb Hc0 Hout Hys Hin x dy back dY HS ED HD
      _ _ _ (ow_planned world P L w HG (b :: c :: ys) x HS) (ow_back_arg world P L w HG (b :: c :: ys) x HS K dy)
      (fun u Hu => back_inactive P w K shape _ dy u Hu) pre init eager gb
      (ow_calls world P L w HG (b :: c :: ys) x HS pre Hpre) Hend idx v Hv).
  - intros v _ Hv. unfold feature_gradient. pose proof (fg_inactive P w shape v Hv) as E. rewrite E. reflexivity.
Qed.

Theorem C52_feature_gradients : C52_statement.
Proof. exact C52_proof. Qed.

Example C52_example :
  feature_given cv_world cv_P cv_L cv_w /\ linear_kernel cv_w fx_f (fun _ => 2) fx_K /\ nth 1 (p_shape cv_P) 0 = 1 /\
  within cv_L cv_w (out_counts cv_G cv_Y) /\ tshape cv_G = layout_shape cv_L /\
  tshape fx_dY = tshape cv_Y /\ holds_blocks cv_P (balanced (tshape cv_Y) (p_shape cv_P)) fx_dY fx_dy /\
  let dX := input_gradient fx_K cv_w (tshape cv_G) fx_dY in
  map (tat dX) (indices [1; 2; 10]) = [-15; -22; -4; 14; 32; 50; 68; 86; 104; 89; -7; -13; -1; 11; 23; 35; 47; 59; 71; 65] /\
  map (tat (fx_dx 12)) (indices [1; 2; 3]) = map (tat (block cv_L [0; 0; 2] dX)) (indices [1; 2; 3]).
Proof.
  split; [apply C30_convolutions_example|]. split; [apply C51_example|]. split; [reflexivity|].
  split; [apply C30_convolutions_example|]. split; [reflexivity|]. split; [reflexivity|].
  split; [split; [reflexivity|]; intros idx v Hv; destruct (cv_workers _ _ Hv) as [-> [-> |[-> | ->]]]; apply teq_refl|].
  cbv zeta. split; vm_compute; reflexivity.
Qed.

Print Assumptions C51_feature_adjoint.
Print Assumptions C52_feature_gradients.
