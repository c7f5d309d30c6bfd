(** Sliding-window layers on a partitioned tensor: C30. *)

From Verif Require Import Prelude SpecIndex SpecLayout SpecPartition SpecHalo ModelSlicing ModelDecomposition
  ModelPartition ProofSlicing ProofDecomposition ProofPartition Ring Tensor ModelCollectives PropCollectives PropExchange
  ModelUtilities PropUtilities Blocks P2P Rounds ModelRepartition ProofTransfer PropRepartition ModelHaloMixin ProofHaloMixin PropHaloMixin
  ModelHaloExchange PropHaloExchange ModelFeatureLayer SpecFeature ProofFeatureLayer.

(** A layer with window [w] on a partition [P] of a tensor in blocks [L]. *)
Definition feature_given (world : list Z) (P : part) (L : layout) (w : window) : Prop :=
  NoDup world /\ (forall v, In v (p_ranks P) -> In v world) /\
  part_ok P /\ layout_ok L /\ layout_workers L = p_shape P /\
  length (p_shape P) = S (S (length (w_kernel w))) /\ window_ok (length (w_kernel w)) w.

(** Earlier calls of the layer's halo exchange had arguments of the same shapes. *)
Definition same_calls {R : CRing} (P : part) (arg : Z -> tensor R) (pre : list (@call R)) : Prop :=
  Forall (fun c => forall v, In v (p_ranks P) ->
    tshape (match c with HForward x => x v | HBackward dy => dy v end) = tshape (arg v)) pre.

(** The extents of the output, with the number of input channels. *)
Definition out_counts {R : CRing} (G Y : tensor R) : list Z :=
  nth 0 (tshape G) 0 :: nth 1 (tshape G) 0 :: skipn 2 (tshape Y).

Definition C30_statement (extra : layout -> window -> list Z -> Prop) : Prop :=
  forall (R : CRing) (world : list Z) (P : part) (L : layout) (w : window)
    (f : @kernel R) (cout : Z -> Z) (value : R) (G Y : tensor R) (x : Z -> tensor R),
    feature_given world P L w ->
    kernel_local w f cout -> nth 1 (p_shape P) 0 = 1 \/ per_channel f cout ->
    is_sequential f cout value w G Y -> holds_blocks P L G x -> extra L w (out_counts G Y) ->
    let shape v := tshape (x v) in
    let arg := halo_argument P w value shape x in
    let plan := halo_plan P w shape in
    let layer := history_rounds P (fun v => tshape (arg v)) (fun v => u_recv (plan v)) (fun v => u_send (plan v)) in
    (* the layer can be set up and its input be padded on every worker... *)
    (forall v, In v world -> halo_input P w value shape x v = Ok (arg v)) /\
    (* ... its halo exchange is safe (C27)... *)
    halo_safe R world P (fun v => tshape (arg v)) (fun v => u_recv (plan v)) (fun v => u_send (plan v)) /\
    (* ... and the outputs are the blocks of the sequential output *)
    forall pre init eager g, same_calls P arg pre -> ends world (layer (pre ++ [HForward arg])) init eager g ->
      (forall idx v, worker_at P idx v ->
         exists t, feature_output P w f cout shape x (halo_result g) v = Ok t /\
                   teq t (block (balanced (tshape Y) (p_shape P)) idx Y)) /\
      (forall v, In v world -> ~ In v (p_ranks P) -> feature_output P w f cout shape x (halo_result g) v = Ok (x v)).

Lemma window_count_unit n : 0 <= n -> window_count n 1 1 0 1 n.
Proof. intros Hn. split; auto. intros o Ho. unfold window_fits. lia. Qed.

Section Main.
  Context {R : CRing}.
  Variables (world : list Z) (P : part) (L : layout) (w : window).
  Variables (f : @kernel R) (cout : Z -> Z) (value : R) (G Y : tensor R) (x : Z -> tensor R).
  Hypothesis HG : feature_given world P L w.
  Hypothesis HK : kernel_local w f cout.
  Hypothesis HC : nth 1 (p_shape P) 0 = 1 \/ per_channel f cout.
  Variables (b c : Z) (xs ys : list Z).
  Hypothesis EG : tshape G = b :: c :: xs.
  Hypothesis EY : tshape Y = b :: cout c :: ys.
  Hypothesis Hcnt : counts xs w ys.
  Hypothesis Hb : 0 < b.
  Hypothesis Hc0 : 0 < c.
  Hypothesis Hys : Forall (fun n => 0 < n) ys.
  Hypothesis HY : forall b' c' o, valid_index (tshape Y) (b' :: c' :: o) ->
    tat Y (b' :: c' :: o) =
    f c c' (fun ch t => value_at G value (b' :: ch ::
      vec (length xs) (fun j => nth j (w_stride w) 0 * nth j o 0 - nth j (w_padding w) 0
                                + nth j (w_dilation w) 0 * nth j t 0))).
  Hypothesis HB : holds_blocks P L G x.

  Let ny := b :: c :: ys.
  Hypothesis Hin : within L w ny.

  Let shape v := tshape (x v).
  Let arg := halo_argument P w value shape x.
  Let plan := halo_plan P w shape.
  Let gp := 0 :: 0 :: w_padding w.
  Let Lp := pad_layout L gp.
  Let H := feature_halos L w.
  Let fw := full_window (length L) (unpadded w).

  Lemma g_part : part_ok P. Proof. apply HG. Qed.
  Lemma g_ok : layout_ok L. Proof. apply HG. Qed.
  Lemma g_workers : layout_workers L = p_shape P. Proof. apply HG. Qed.
  Lemma g_window : window_ok (nf w) w. Proof. apply HG. Qed.
  Lemma g_len : length L = S (S (nf w)).
  Proof. destruct HG as (_ & _ & _ & _ & E & E' & _). rewrite <- E, layout_workers_length in E'. exact E'. Qed.
  Lemma g_shape : layout_shape L = b :: c :: xs.
  Proof. destruct HB as [E _]. congruence. Qed.
  Lemma xs_len : length xs = nf w.
  Proof. pose proof g_shape as E. apply (f_equal (@length Z)) in E. rewrite layout_shape_length, g_len in E. simpl in E. lia. Qed.
  Lemma ys_len : length ys = nf w.
  Proof. destruct Hcnt as [E _]. now rewrite E, xs_len. Qed.

  Lemma g_shapes v idx : worker_at P idx v -> shape v = block_shape L idx.
  Proof. intros Hv. destruct HB as [_ B]. destruct (B idx v Hv) as [E _]. exact E. Qed.

  Lemma g_full : full_window (length L) w = mkwindow (1 :: 1 :: w_kernel w) (1 :: 1 :: w_stride w) gp (1 :: 1 :: w_dilation w).
  Proof. exact (full_eq P L w shape g_len g_window g_shapes). Qed.

  Lemma g_counts : counts (layout_shape L) (full_window (length L) w) ny.
  Proof.
    rewrite g_shape, g_full. destruct Hcnt as [E C]. split; [cbn; now rewrite E|].
    intros [|[|j]] Hj; cbn [w_kernel w_stride w_padding w_dilation nth ny gp].
    - apply window_count_unit. lia.
    - apply window_count_unit. lia.
    - apply C. cbn [length] in Hj. lia.
  Qed.

  Lemma g_ny : Forall (fun n => 0 < n) ny.
  Proof. repeat (constructor; auto). Qed.

  Lemma g_Lp : length Lp = length L.
  Proof. exact (Lp_length L w g_len g_window). Qed.

  Lemma g_setup idx v : worker_at P idx v ->
    feature_setup P w shape v =
    Ok (Some (mkfsetup (compute_local_padding (p_shape P) idx gp) (recv_plan H idx) (recv_plan H idx) (send_plan H idx)
                (compute_needed_ranges (block_shape Lp idx) (signed_halos L w idx)))).
  Proof. intros Hv. exact (setup_ok P L w shape g_part g_ok g_workers g_len g_window g_shapes idx v Hv). Qed.

  Lemma g_plan idx v : worker_at P idx v -> u_recv (plan v) = recv_plan H idx /\ u_send (plan v) = send_plan H idx.
  Proof. intros Hv. unfold plan, halo_plan. rewrite (g_setup idx v Hv). auto. Qed.

  Lemma g_arg idx v : worker_at P idx v ->
    halo_input P w value shape x v = Ok (arg v) /\
    tshape (arg v) = padded_shape Lp H idx /\
    forall p, valid_index (block_shape Lp idx) p ->
      tat (arg v) (vadd (left_halo H idx) p) = value_at G value (vsub (vadd (block_lo Lp idx) p) gp).
  Proof.
    intros Hv. pose proof (proj1 Hv) as Hi. destruct HB as [EG' B]. pose proof (B idx v Hv) as [Ex Vx].
    destruct (padded_ok P L w ny shape g_workers g_len g_window g_shapes idx Hi value
                (compute_needed_ranges (block_shape Lp idx) (signed_halos L w idx)) (x v) Ex) as (t & E1 & E2 & E3).
    assert (EI : halo_input P w value shape x v = Ok t).
    { unfold halo_input. rewrite (g_setup idx v Hv). cbn [rbind]. exact E1. }
    assert (EA : arg v = t) by (unfold arg, halo_argument; now rewrite EI).
    rewrite EA. split; [auto|]. split; [auto|]. intros p Hp.
    destruct (bulk_point Lp H idx p) as [HV _]; auto.
    { unfold H, feature_halos. apply layer_halos_ok. }
    { rewrite g_Lp. exact (idx_length P L g_workers idx Hi). }
    rewrite E3 by auto.
    apply (padded_bulk P L w ny shape g_ok g_workers g_len g_window g_shapes idx Hi value G (x v) p); auto.
  Qed.

  Lemma g_given : halo_given world P Lp H.
  Proof.
    destruct HG as (A1 & A2 & A3 & A4 & A5 & A6 & A7). split; [auto|]. split; [auto|]. split; [auto|].
    split; [exact (Lp_ok P L w shape g_ok g_len g_window g_shapes)|]. split; [exact (Lp_workers P L w A5 g_len g_window)|].
    unfold H, feature_halos. apply layer_halos_ok.
  Qed.

  Lemma g_planned : planned P Lp H (fun v => tshape (arg v)) (fun v => u_recv (plan v)) (fun v => u_send (plan v)).
  Proof.
    intros idx v Hv. destruct (g_arg idx v Hv) as (_ & E & _). destruct (g_plan idx v Hv) as (E1 & E2). auto.
  Qed.

  Lemma g_inactive v : ~ In v (p_ranks P) -> feature_setup P w shape v = Ok None.
  Proof. intros Hv. unfold feature_setup. apply index_in_none in Hv. now rewrite Hv. Qed.

  Let Ly := balanced (tshape Y) (p_shape P).

  Section Worker.
    Variable idx : list Z.
    Hypothesis Hi : valid_index (p_shape P) idx.

    Let n j := nth j (p_shape P) 0.
    Let i j := nth j idx 0.

    Lemma w_len : length (p_shape P) = length L.
    Proof. rewrite <- g_workers. apply layout_workers_length. Qed.
    Lemma i_len : length idx = length L.
    Proof. exact (idx_length P L g_workers idx Hi). Qed.
    Lemma Y_len : length (tshape Y) = length L.
    Proof. rewrite EY, g_len. cbn. now rewrite ys_len. Qed.
    Lemma ny_len : length ny = length L.
    Proof. rewrite g_len. cbn. now rewrite ys_len. Qed.

    Lemma n_nth j : (j < length L)%nat -> Z.of_nat (length (nth j Lp [])) = n j.
    Proof.
      intros Hj. unfold n. replace (p_shape P) with (layout_workers Lp) by exact (Lp_workers P L w g_workers g_len g_window). symmetry. apply workers_nth.
      now rewrite g_Lp.
    Qed.

    Lemma i_bound j : (j < length L)%nat -> 0 <= i j < n j.
    Proof. intros Hj. apply valid_index_nth in Hi as [_ V]. apply V. now rewrite w_len. Qed.

    Lemma Ly_lo j : (j < length L)%nat -> nth j (block_lo Ly idx) 0 = start1 (n j) (i j) (nth j (tshape Y) 0).
    Proof.
      intros Hj. unfold Ly. rewrite balanced_block_lo; [|apply g_part|now rewrite Y_len, w_len|auto].
      unfold compute_start_index. rewrite map3_nth with (da := 0) (db := 0) (dc := 0); auto; rewrite ?w_len, ?i_len, ?Y_len; auto.
    Qed.
    Lemma Ly_sh j : (j < length L)%nat -> nth j (block_shape Ly idx) 0 = subshape1 (n j) (i j) (nth j (tshape Y) 0).
    Proof.
      intros Hj. unfold Ly. rewrite balanced_block_shape; [|apply g_part|now rewrite Y_len, w_len|auto].
      unfold compute_subshape. rewrite map3_nth with (da := 0) (db := 0) (dc := 0); auto; rewrite ?w_len, ?i_len, ?Y_len; auto.
    Qed.
    Lemma Ly_len : length Ly = length L.
    Proof. unfold Ly, balanced. rewrite map2_length; rewrite Y_len; auto. now rewrite w_len. Qed.

    Let k j := nth j (w_kernel fw) 0.
    Let s j := nth j (w_stride fw) 0.
    Let d j := nth j (w_dilation fw) 0.
    Let ylo j := start1 (n j) (i j) (nth j ny 0).
    Let yn j := subshape1 (n j) (i j) (nth j ny 0).
    Let ext := local_extents L w ny idx.
    Let fst_in := first_input L w ny idx.

    Lemma g_fw : fw = mkwindow (1 :: 1 :: w_kernel w) (1 :: 1 :: w_stride w) (repeat 0 (length L)) (1 :: 1 :: w_dilation w).
    Proof. exact (fw_eq P L w shape g_len g_window g_shapes). Qed.

    Lemma ext_len : length ext = length L.
    Proof. unfold ext, local_extents. apply vec_length. Qed.

    Lemma ext_facts j : (j < length L)%nat ->
      out_extent (nth j ext 0) (k j) (s j) 0 (d j) = yn j /\
      s j * (yn j - 1) + d j * (k j - 1) < nth j ext 0 /\ 0 < yn j /\ 0 < s j /\ 0 < d j /\ nth j fst_in 0 = s j * ylo j.
    Proof.
      intros Hj.
      set (lo := dim_lo (nth j Lp []) (i j)). set (m := nth (Z.to_nat (i j)) (nth j Lp []) 0).
      set (N := Z.of_nat (length (nth j Lp []))). set (yl := start1 N (i j) (nth j ny 0)).
      set (yc := subshape1 N (i j) (nth j ny 0)). set (X := Z.max (lo + m) (s j * (yl + yc - 1) + d j * (k j - 1) + 1) - s j * yl).
      assert (O : out_extent X (k j) (s j) 0 (d j) = yc).
      { exact (outputs P L w ny shape g_part g_ok g_workers g_len g_window g_counts g_ny Hin g_shapes idx Hi j Hj). }
      assert (F : 0 < yc).
      { exact (proj1 (facts P L w ny shape g_part g_ok g_workers g_len g_window g_counts g_ny Hin g_shapes idx Hi j Hj)). }
      assert (EX : nth j ext 0 = X) by (unfold ext, local_extents; now rewrite vec_nth by auto).
      assert (EF : nth j fst_in 0 = s j * yl) by (unfold fst_in, first_input; now rewrite vec_nth by auto).
      assert (EN : N = n j) by (exact (n_nth j Hj)).
      assert (El : yl = ylo j) by (unfold yl, ylo; now rewrite EN).
      assert (Ec : yc = yn j) by (unfold yc, yn; now rewrite EN).
      rewrite EX, EF, <- El, <- Ec.
      assert (S0 : 0 < s j /\ 0 < d j).
      { destruct (window_nth _ _ j (fw_window P L w shape g_len g_window g_shapes)) as (_ & B & _ & C); auto.
        change (j < length Lp)%nat. now rewrite g_Lp. }
      split; [exact O|]. split; [unfold X; nia|]. destruct S0; auto.
    Qed.

    Lemma ext_unit j : (j < 2)%nat -> nth j ext 0 = yn j /\ nth j fst_in 0 = ylo j.
    Proof.
      intros Hj. assert (HL : (j < length L)%nat) by (rewrite g_len; lia).
      destruct (ext_facts j HL) as (E & _ & _ & _ & _ & E'). rewrite E', <- E.
      unfold k, s, d. rewrite g_fw. unfold out_extent.
      destruct j as [|[|j]]; cbn [w_kernel w_stride w_dilation nth]; [| |lia];
      rewrite Z.div_1_r, Z.mul_1_l; split; auto; lia.
    Qed.

    Lemma ext_cons : exists es, ext = yn 0 :: yn 1 :: es /\ length es = nf w /\
      forall j, (j < nf w)%nat -> nth j es 0 = nth (S (S j)) ext 0.
    Proof.
      pose proof ext_len as E. rewrite g_len in E.
      pose proof (proj1 (ext_unit 0 ltac:(lia))) as E0. pose proof (proj1 (ext_unit 1 ltac:(lia))) as E1.
      destruct ext as [|e0 [|e1 es]]; try discriminate. cbn in E0, E1. subst e0 e1.
      exists es. split; [auto|]. cbn [length] in E. split; [lia|auto].
    Qed.

    (** The channel dimension. *)
    Lemma chan : 
      cout (yn 1) = subshape1 (n 1) (i 1) (cout c) /\
      (n 1 = 1 /\ ylo 1 = 0 /\ yn 1 = c /\ start1 (n 1) (i 1) (cout c) = 0 \/
       per_channel f cout /\ ylo 1 = start1 (n 1) (i 1) (cout c)).
    Proof.
      assert (H1 : (1 < length L)%nat) by (rewrite g_len; lia). pose proof (i_bound 1 H1) as B.
      destruct HC as [E|E].
      - change (n 1%nat = 1) in E. unfold yn, ylo. cbn [nth ny]. rewrite E in *. assert (Ei : i 1%nat = 0) by lia. rewrite Ei.
        assert (U : forall z, subshape1 1 0 z = z).
        { intros z. pose proof (start1_step 1 0 z ltac:(lia) ltac:(lia)) as A. change (0 + 1) with 1 in A.
          rewrite start1_P, start1_0 in A by lia. lia. }
        rewrite !U, !start1_0 by lia. split; [reflexivity|]. left. auto.
      - destruct E as [Ec Eh]. split; [now rewrite !Ec|]. right. split; [split; auto|]. unfold ylo. cbn [nth ny]. now rewrite Ec.
    Qed.

    Lemma output_ok (y : tensor R) :
      tshape y = padded_shape Lp H idx ->
      (forall q, valid_index (padded_shape Lp H idx) q -> tat y q = value_at G value (vsub (global_point Lp H idx q) gp)) ->
      exists t, torch_sliding f cout w
                  (slice_tensor y (compute_needed_ranges (block_shape Lp idx) (signed_halos L w idx))) = Ok t /\
                teq t (block Ly idx Y).
    Proof.
      intros Sy Vy.
      set (sl := slice_tensor y _).
      assert (S1 : tshape sl = ext).
      { exact (sliced_shape P L w ny shape g_part g_ok g_workers g_len g_window g_counts g_ny Hin g_shapes idx Hi y Sy). }
      assert (V1 : forall q, valid_index ext q -> tat sl q = value_at G value (vsub (vadd fst_in q) gp)).
      { exact (sliced_value P L w ny shape g_part g_ok g_workers g_len g_window g_counts g_ny Hin g_shapes idx Hi y
                 (fun p => value_at G value (vsub p gp)) Sy Vy). }
      destruct ext_cons as (es & Ee & Le & Ne).
      assert (Hkl : forall j, (j < nf w)%nat -> k (S (S j)) = nth j (w_kernel w) 0 /\ s (S (S j)) = nth j (w_stride w) 0 /\
                                             d (S (S j)) = nth j (w_dilation w) 0).
      { intros j Hj. unfold k, s, d. rewrite g_fw. auto. }
      set (yl := compute_out_shape es (mkwindow (w_kernel w) (w_stride w) (repeat 0 (length es)) (w_dilation w))).
      assert (Ly1 : length yl = nf w) by (unfold yl, compute_out_shape; now rewrite vec_length).
      assert (Ny1 : forall j, (j < nf w)%nat -> nth j yl 0 = yn (S (S j))).
      { intros j Hj. unfold yl, compute_out_shape. rewrite vec_nth by lia. cbn [w_kernel w_stride w_padding w_dilation].
        rewrite Ne by auto. destruct (ext_facts (S (S j))) as (<- & _); [rewrite g_len; lia|].
        destruct (Hkl j Hj) as (-> & -> & ->). f_equal.
        destruct (nth_in_or_default j (repeat 0 (length es)) 0) as [Hr|Hr]; auto. now apply repeat_spec in Hr. }
      assert (T1 : forallb (fun n => 0 <? n) yl = true).
      { apply forallb_forall. intros z Hz. apply In_nth with (d := 0) in Hz as (j & Hj & <-). rewrite Ly1 in Hj.
        rewrite Ny1 by auto. apply Z.ltb_lt. apply ext_facts. rewrite g_len. lia. }
      unfold torch_sliding. rewrite S1, Ee. fold yl. rewrite T1. eexists. split; [reflexivity|].
      destruct chan as [Ec Hch].
      assert (LL : length L = S (S (nf w))) by exact g_len.
      assert (Sh : yn 0 :: cout (yn 1) :: yl = block_shape Ly idx).
      { apply list_eq_nth with (d := 0).
        - rewrite block_shape_length; rewrite Ly_len; [|now rewrite i_len]. cbn [length]. rewrite Ly1. auto.
        - intros [|[|j]] Hj; cbn [length] in Hj; rewrite Ly_sh by lia; rewrite EY; cbn [nth].
          + reflexivity.
          + exact Ec.
          + rewrite Ny1 by lia. unfold yn. reflexivity. }
      split; [exact Sh|]. cbn [tshape]. intros q Hq.
      pose proof Hq as Hq'. apply valid_index_nth in Hq' as [Lq Bq]. cbn [length] in Lq, Bq. rewrite Ly1 in Lq, Bq.
      destruct q as [|b' [|c' o]]; try discriminate. cbn [length] in Lq.
      pose proof (Bq 0%nat ltac:(lia)) as B0. pose proof (Bq 1%nat ltac:(lia)) as B1. cbn [nth] in B0, B1.
      assert (Bo : forall j, (j < nf w)%nat -> 0 <= nth j o 0 < yn (S (S j))).
      { intros j Hj. pose proof (Bq (S (S j)) ltac:(lia)) as B. cbn [nth] in B. now rewrite Ny1 in B by auto. }
      unfold block. cbn [tat].
      assert (Llo : length (block_lo Ly idx) = length L) by (rewrite block_lo_length; rewrite Ly_len; auto; now rewrite i_len).
      assert (Elo : vadd (block_lo Ly idx) (b' :: c' :: o) =
                    (ylo 0 + b') :: (start1 (n 1) (i 1) (cout c) + c') ::
                    vec (nf w) (fun j => ylo (S (S j)) + nth j o 0)).
      { apply list_eq_nth with (d := 0); unfold vadd.
        - rewrite map2_length; rewrite Llo; cbn [length]; rewrite ?vec_length; lia.
        - intros j Hj. rewrite map2_length in Hj by (rewrite Llo; cbn [length]; lia). rewrite Llo in Hj.
          rewrite map2_nth with (da := 0) (db := 0) by (rewrite Llo; cbn [length]; lia).
          rewrite Ly_lo by auto. rewrite EY. destruct j as [|[|j]]; cbn [nth].
          + reflexivity.
          + reflexivity.
          + rewrite vec_nth by lia. reflexivity. }
      assert (Hval : valid_index (tshape Y) (vadd (block_lo Ly idx) (b' :: c' :: o))).
      { rewrite Sh in Hq. apply valid_index_nth. split.
        - unfold vadd. rewrite map2_length; rewrite Llo; cbn [length]; [now rewrite Y_len|lia].
        - intros j Hj. rewrite Y_len in Hj. unfold vadd. rewrite map2_nth with (da := 0) (db := 0) by (rewrite Llo; cbn [length]; lia).
          rewrite Ly_lo by auto. apply valid_index_nth in Hq as [_ Bq']. specialize (Bq' j).
          rewrite block_shape_length in Bq' by (rewrite Ly_len, i_len; auto). rewrite Ly_len in Bq'. specialize (Bq' Hj).
          rewrite Ly_sh in Bq' by auto. pose proof (i_bound j Hj) as Bi.
          assert (Ypos : 0 <= nth j (tshape Y) 0).
          { destruct (Z.le_gt_cases 0 (nth j (tshape Y) 0)); auto. exfalso.
            assert (subshape1 (n j) (i j) (nth j (tshape Y) 0) <= 0); [|lia].
            unfold subshape1. pose proof (Z.div_mod (nth j (tshape Y) 0) (n j) ltac:(lia)).
            pose proof (Z.mod_pos_bound (nth j (tshape Y) 0) (n j) ltac:(lia)).
            destruct (_ <? _); nia. }
          pose proof (start1_mono (n j) 0 (i j) (nth j (tshape Y) 0) ltac:(lia) Ypos ltac:(lia)) as M1.
          rewrite start1_0 in M1 by lia.
          pose proof (start1_mono (n j) (i j + 1) (n j) (nth j (tshape Y) 0) ltac:(lia) Ypos ltac:(lia)) as M2.
          rewrite start1_P, start1_step in M2 by lia. lia. }
      rewrite Elo in *. rewrite HY by exact Hval. rewrite xs_len.
      set (gs := fun (ch : Z) (t : list Z) => value_at G value _).
      assert (Hloc : forall ch t, 0 <= ch < yn 1 -> valid_index (w_kernel w) t ->
                tat sl (b' :: ch :: window_point w o t) = gs (ylo 1 + ch) t).
      { intros ch t Hch' Ht. apply valid_index_nth in Ht as [Lt Bt].
        destruct g_window as (W1 & W2 & W3 & W4 & _).
        assert (Lwp : length (window_point w o t) = nf w).
        { unfold window_point, vadd. rewrite !map2_length; rewrite ?map2_length; lia. }
        assert (Nwp : forall j, (j < nf w)%nat -> nth j (window_point w o t) 0 =
                  nth j (w_stride w) 0 * nth j o 0 + nth j (w_dilation w) 0 * nth j t 0).
        { intros j Hj. unfold window_point, vadd.
          rewrite map2_nth with (da := 0) (db := 0); rewrite ?map2_length; try lia.
          rewrite !map2_nth with (da := 0) (db := 0); try lia. }
        assert (Lf : length fst_in = length L) by (unfold fst_in, first_input; apply vec_length).
        rewrite V1.
        - unfold gs. f_equal. apply list_eq_nth with (d := 0); unfold vadd, vsub.
          + rewrite !map2_length; rewrite ?map2_length; rewrite ?Lf; cbn [length gp]; rewrite ?vec_length; lia.
          + intros j Hj. rewrite !map2_length in Hj; rewrite ?map2_length; rewrite ?Lf in *; cbn [length gp] in *; try lia.
            rewrite map2_nth with (da := 0) (db := 0); rewrite ?map2_length; rewrite ?Lf; cbn [length gp]; try lia.
            rewrite map2_nth with (da := 0) (db := 0); rewrite ?Lf; cbn [length]; try lia.
            destruct j as [|[|j]]; cbn [nth gp].
            * rewrite (proj2 (ext_unit 0 ltac:(lia))). lia.
            * rewrite (proj2 (ext_unit 1 ltac:(lia))). lia.
            * rewrite Nwp by lia. rewrite !vec_nth by lia. destruct (ext_facts (S (S j))) as (_ & _ & _ & _ & _ & F); [lia|].
              rewrite F. destruct (Hkl j ltac:(lia)) as (_ & -> & _). lia.
        - apply valid_index_nth. rewrite ext_len. split; [cbn [length]; lia|].
          intros [|[|j]] Hj; cbn [nth].
          + now rewrite (proj1 (ext_unit 0 ltac:(lia))).
          + now rewrite (proj1 (ext_unit 1 ltac:(lia))).
          + rewrite Nwp by lia. destruct (ext_facts (S (S j))) as (_ & F & _ & Fs & Fd & _); [lia|].
            destruct (Hkl j ltac:(lia)) as (K1 & K2 & K3). rewrite K1, K2, K3 in *.
            pose proof (Bo j ltac:(lia)). pose proof (Bt j ltac:(unfold nf in *; lia)). nia. }
      destruct Hch as [(En & El & Ey & Es)|([Ecc [h Eh]] & El)].
      - rewrite Ey, Es. rewrite Z.add_0_l. apply HK; [|rewrite Ey in B1; exact B1].
        intros ch t A1 A2. rewrite Hloc; auto; [|now rewrite Ey]. now rewrite El, Z.add_0_l.
      - rewrite <- El. transitivity (f (yn 1) c' (fun ch t => gs (ylo 1 + ch) t)); [apply HK; auto|now rewrite !Eh].
    Qed.
  End Worker.

  (** After a forward exchange by any plan of these extents. *)
  Lemma exchanged_by sh recv send pre init eager g idx v :
    planned P Lp H sh recv send -> Forall (call_ok P Lp H) pre ->
    ends world (history_rounds (R := R) P sh recv send (pre ++ [HForward arg])) init eager g -> worker_at P idx v ->
    tshape (halo_result g v) = padded_shape Lp H idx /\
    forall q, valid_index (padded_shape Lp H idx) q ->
      tat (halo_result g v) q = value_at G value (vsub (global_point Lp H idx q) gp).
  Proof.
    intros Hplan Hpre Hend Hv.
    set (G' := mkt (layout_shape Lp) (fun p => value_at G value (vsub p gp))).
    destruct (C25_proof R world P Lp H sh recv send G' pre arg init eager g g_given
                (narrow P L w ny shape g_part g_ok g_workers g_len g_window g_counts g_ny Hin g_shapes) Hplan) as [A _]; auto.
    - apply Forall_app. split; auto.
      constructor; [|constructor]. intros i' v' Hv'. apply (g_arg i' v' Hv').
    - intros i' v' p Hv' Hp. now apply (g_arg i' v' Hv').
    - destruct (A idx v Hv) as (A1 & A2 & _). split; auto. intros q Hq. apply A2. auto.
  Qed.

  Lemma output_by sh recv send pre init eager g idx v :
    planned P Lp H sh recv send -> Forall (call_ok P Lp H) pre ->
    ends world (history_rounds (R := R) P sh recv send (pre ++ [HForward arg])) init eager g -> worker_at P idx v ->
    exists t, feature_output P w f cout shape x (halo_result g) v = Ok t /\
              teq t (block (balanced (tshape Y) (p_shape P)) idx Y).
  Proof.
    intros Hplan Hpre Hend Hv. destruct (exchanged_by sh recv send pre init eager g idx v Hplan Hpre Hend Hv) as [E1 E2].
    unfold feature_output. rewrite (g_setup idx v Hv). cbn [rbind u_needed].
    apply (output_ok idx (proj1 Hv)); auto.
  Qed.

  Lemma g_calls pre : same_calls P arg pre -> Forall (call_ok P Lp H) pre.
  Proof.
    intros Hpre. eapply Forall_impl; [|exact Hpre]. intros cl Hcl i' v' Hv'. pose proof (Hcl v' (worker_at_In P i' v' Hv')) as E.
    pose proof (proj1 (proj2 (g_arg i' v' Hv'))) as E'. cbv zeta. destruct cl; congruence.
  Qed.
End Main.

(** Padding raises nothing and the exchange is safe. *)
Definition halo_ready {R : CRing} (world : list Z) (P : part) (w : window) (value : R) (x : Z -> tensor R) : Prop :=
  let shape v := tshape (x v) in
  let arg := halo_argument P w value shape x in
  let plan := halo_plan P w shape in
  (forall v, In v world -> halo_input P w value shape x v = Ok (arg v)) /\
  halo_safe R world P (fun v => tshape (arg v)) (fun v => u_recv (plan v)) (fun v => u_send (plan v)).

Lemma halo_started {R : CRing} world P L w (value : R) G x :
  feature_given world P L w -> holds_blocks P L G x -> halo_ready world P w value x.
Proof.
  intros HG HB. split.
  - intros v Hw. destruct (in_dec Z.eq_dec v (p_ranks P)) as [Hv|Hv].
    + destruct (worker_at_exists P v) as [idx Hidx]; [apply HG|auto|].
      exact (proj1 (g_arg world P L w value G x HG 0 0 [] HB idx v Hidx)).
    + unfold halo_argument, halo_input. now rewrite (g_inactive P w x v Hv).
  - exact (given_safe R _ _ _ _ _ _ _ (g_given world P L w G x HG HB) (g_planned world P L w value G x HG 0 0 [] HB)).
Qed.

Lemma C30_proof : C30_statement within.
Proof.
  intros R world P L w f cout value G Y x HG HK HC (b & c & xs & ys & EG & EY & Hcnt & Hb & Hc0 & Hys & HY) HB Hin.
  unfold out_counts in Hin. rewrite EG, EY in Hin. cbn [nth skipn] in Hin.
  intros shape arg plan layer. destruct (halo_started world P L w value G x HG HB) as [S1 S2]. split; [exact S1|split; [exact S2|]].
  - intros pre init eager g Hpre Hend. split.
    + intros idx v Hv.
      exact (output_by world P L w f cout value G Y x HG HK HC b c xs ys EG EY Hcnt Hb Hc0 Hys HY HB Hin _ _ _ pre init eager g idx v
               (g_planned world P L w value G x HG b c ys HB) (g_calls world P L w value G x HG b c ys HB pre Hpre) Hend Hv).
    + intros v Hw Hv. unfold feature_output. unfold shape. now rewrite (g_inactive P w x v Hv).
Qed.

(** * Not for all parameters

    Asynchronous rounds that satisfy [async_ok] have an execution that ends. *)
Lemma done_dec {S M} (world : list Z) (prog : Z -> list (list (@action S M))) (g : @gst S M) :
  {done world prog g} + {~ done world prog g}.
Proof.
  destruct (Forall_dec (fun v => wround (gw g v) = length (prog v)) (fun v => Nat.eq_dec _ _) world) as [F|F].
  - left. intros v Hv. rewrite Forall_forall in F. auto.
  - right. intros D. apply F. apply Forall_forall. exact D.
Qed.

Lemma async_ends {S M} (world : list Z) (eqS : S -> S -> Prop) (rounds : list (@round S M)) init eager :
  async_ok world eqS rounds init -> exists g, ends world rounds init eager g.
Proof.
  intros HA. destruct (ao_bounded _ _ _ _ HA eager) as [N HN].
  assert (K : forall m n g, (N - n <= m)%nat -> run world (rounds_prog rounds) init eager n g ->
            exists g', ends world rounds init eager g').
  { induction m as [|m IH]; intros n g Hm Hr; destruct (done_dec world (rounds_prog rounds) g) as [D|D];
      try (exists g; exists n; now split);
      destruct (ao_progress _ _ _ _ HA eager n g Hr D) as [g' Hs];
      pose proof (run_step _ _ _ _ _ _ _ Hr Hs) as Hr'; pose proof (HN _ _ Hr') as B.
    - exfalso. pose proof (HN _ _ Hr). lia.
    - apply (IH (1 + n)%nat g'); [lia|auto]. }
  apply (K N 0%nat (ginit init)); [lia|constructor].
Qed.

(** Results of the exchange that agree everywhere give the same outputs. *)
Lemma sliding_steq {R : CRing} (f : @kernel R) cout w (a b : tensor R) r :
  (forall c c' g g', (forall ch t, g ch t = g' ch t) -> f c c' g = f c c' g') -> steq a b ->
  match torch_sliding f cout w (slice_tensor a r), torch_sliding f cout w (slice_tensor b r) with
  | Ok t, Ok t' => steq t t'
  | Raise e, Raise e' => e = e'
  | _, _ => False
  end.
Proof.
  intros Hf [E V]. unfold torch_sliding, slice_tensor, read_slice. cbn [tshape]. rewrite E.
  destruct (compute_nd_slice_shape _) as [|b0 [|c0 xs]]; auto. destruct (forallb _ _); auto.
  split; [reflexivity|]. cbn [tat]. intros [|b' [|c' o]]; auto.
Qed.

(** A "same" convolution (kernel 5, padding 2) of four numbers on four workers:
    the halos of two are wider than the blocks of one in the middle, and worker 1
    gets the ghost cell of worker 2 instead of the number of worker 3. *)
Definition rf_world : list Z := [0; 1; 2; 3].
Definition rf_P : part := mkpart 0 [0; 1; 2; 3] [1; 1; 4].
Definition rf_L : layout := [[1]; [1]; [1; 1; 1; 1]].
Definition rf_w : window := mkwindow [5] [1] [2] [1].
Definition rf_f : @kernel Zring := fun _ c g => sumf (indices [5]) (fun t => g c t).
Definition rf_G : tensor Zring := @mkt Zring [1; 1; 4] (fun i => 10 ^ nth 2 i 0).
Definition rf_Y : tensor Zring := @mkt Zring [1; 1; 4] (fun i =>
  match i with
  | b' :: c' :: o => rf_f 1 c' (fun ch t => value_at rf_G 0 (b' :: ch ::
      vec 1 (fun j => nth j [1] 0 * nth j o 0 - nth j [2] 0 + nth j [1] 0 * nth j t 0)))
  | _ => 0
  end).
Definition rf_x (v : Z) : tensor Zring := block rf_L [0; 0; v] rf_G.
Definition rf_shape (v : Z) : list Z := tshape (rf_x v).
Definition rf_arg := halo_argument rf_P rf_w (0 : car Zring) rf_shape rf_x.
Definition rf_plan := halo_plan rf_P rf_w rf_shape.

Lemma rf_workers idx v : worker_at rf_P idx v -> idx = [0; 0; v] /\ (v = 0 \/ v = 1 \/ v = 2 \/ v = 3).
Proof.
  intros [Hi Hv]. inversion Hi as [|? a ? t Ha Ht]; subst. inversion Ht as [|? b ? t' Hb Ht']; subst.
  inversion Ht' as [|? c ? t'' Hc Ht'']; subst. inversion Ht''; subst.
  assert (a = 0) by lia; assert (b = 0) by lia; subst.
  assert (c = 0 \/ c = 1 \/ c = 2 \/ c = 3) as [-> |[-> |[-> | ->]]] by lia; cbn in Hv; inv Hv; auto 6.
Qed.

Lemma rf_given : feature_given rf_world rf_P rf_L rf_w.
Proof.
  split; [repeat constructor; simpl; lia|]. split; [auto|].
  split; [repeat split; try discriminate; repeat constructor; simpl; lia|].
  split; [repeat constructor; lia|]. split; [reflexivity|]. split; [reflexivity|].
  repeat split; repeat constructor; lia.
Qed.

Lemma rf_local : kernel_local rf_w rf_f (fun c => c).
Proof.
  intros c c' g g' E Hc. apply sumf_ext. intros t Ht. apply E; auto. now apply in_indices.
Qed.

Lemma rf_sequential : is_sequential rf_f (fun c => c) (0 : car Zring) rf_w rf_G rf_Y.
Proof.
  exists 1, 1, [4], [4]. split; [reflexivity|]. split; [reflexivity|].
  split.
  { split; [reflexivity|]. intros [|j] Hj; cbn in Hj; [|lia]. cbn. split; [lia|]. unfold window_fits. intros. lia. }
  split; [lia|]. split; [lia|]. split; [repeat constructor|]. reflexivity.
Qed.

Lemma rf_blocks : holds_blocks rf_P rf_L rf_G rf_x.
Proof.
  split; [reflexivity|]. intros idx v Hv. destruct (rf_workers _ _ Hv) as [-> _]. apply teq_refl.
Qed.

Theorem C30_all_parameters_refuted : ~ C30_statement (fun _ _ _ => True).
Proof.
  intros C. pose proof (C Zring rf_world rf_P rf_L rf_w rf_f (fun c => c) 0 rf_G rf_Y rf_x rf_given rf_local
                 (or_introl eq_refl) rf_sequential rf_blocks I) as (_ & _ & K). clear C.
  change (forall v : Z, list Z) with (Z -> list Z) in *.
  pose proof (g_given rf_world rf_P rf_L rf_w rf_G rf_x rf_given rf_blocks) as Gi.
  pose proof (g_planned rf_world rf_P rf_L rf_w (0 : car Zring) rf_G rf_x rf_given 1 1 [4] rf_blocks) as Pl.
  destruct (async_ends _ _ _ _ (fun _ _ _ _ => true) (halo_async _ _ _ _ _ _ _ Gi Pl [HForward rf_arg]
    (fun _ => mkhst (mkt [] (fun _ => 0 : car Zring)) (mkt [] (fun _ => 0 : car Zring)) (mkt [] (fun _ => 0 : car Zring)) []))) as [g Hg].
  destruct (K [] _ _ g (Forall_nil _) Hg) as [K1 _]. clear K.
  destruct (K1 [0; 0; 1] 1) as (t & Et & Es & Ev); [split; [repeat constructor; lia|reflexivity]|].
  destruct (ends_result rf_world rf_P (pad_layout rf_L (0 :: 0 :: w_padding rf_w)) (feature_halos rf_L rf_w) _ _ _ Gi Pl
    (map (forward_round rf_P (fun v => tshape (rf_arg v)) (fun v => u_recv (rf_plan v)) (fun v => u_send (rf_plan v))) (seq 0 3))
    rf_arg [] (HForward rf_arg) _ _ g 1 ltac:(simpl; auto) eq_refl Hg) as (S0 & Er & ES).
  revert Et. unfold feature_output. 
  match goal with |- context [feature_setup ?P ?w ?s ?v] =>
    let u := eval vm_compute in (feature_setup P w s v) in change (feature_setup P w s v) with u end.
  cbn [rbind u_needed]. intros Et.
  match type of Et with torch_sliding _ _ _ (slice_tensor _ ?r) = _ =>
    pose proof (sliding_steq rf_f (fun c => c) rf_w _ _ r
      (fun c c' g g' E => sumf_ext _ _ _ (fun t _ => E c' t)) Er) as Q end.
  rewrite Et in Q. subst S0.
  match type of Q with context [torch_sliding ?f ?c ?w (slice_tensor ?t ?r)] =>
    set (T := torch_sliding f c w (slice_tensor t r)) in Q end.
  destruct T as [t'|] eqn:ET; [|exact Q]. destruct Q as [_ Q].
  specialize (Ev [0; 0; 0]). rewrite Q in Ev.
  assert (X : match T with Ok t' => tat t' [0; 0; 0] | Raise _ => 0 end = 111).
  { vm_compute. reflexivity. }
  rewrite ET in X. rewrite X in Ev. rewrite Es in Ev.
  assert (V : valid_index (tshape (block (balanced (tshape rf_Y) (p_shape rf_P)) [0; 0; 1] rf_Y)) [0; 0; 0]).
  { vm_compute. repeat constructor; discriminate. }
  specialize (Ev V). clear - Ev. change (tat (block (balanced (tshape rf_Y) (p_shape rf_P)) [0; 0; 1] rf_Y) [0; 0; 0]) with 1111 in Ev. lia.
Qed.
