(** Halo sizes: C28 and C29. *)

From Verif Require Import Prelude SpecIndex SpecLayout SpecHalo ModelSlicing ModelDecomposition ModelPartition
  ProofSlicing ProofDecomposition ModelHaloMixin ProofHaloMixin.

(** * Vocabulary *)

(** A layer gives its window parameters for the last dimensions only; in the
    others the window is a single point. *)
Definition fill_left (n : nat) (c : Z) (l : list Z) : list Z := repeat c (n - length l) ++ l.
Definition full_window (n : nat) (w : window) : window :=
  mkwindow (fill_left n 1 (w_kernel w)) (fill_left n 1 (w_stride w))
           (fill_left n 0 (w_padding w)) (fill_left n 1 (w_dilation w)).
Definition window_short (n : nat) (w : window) : Prop :=
  (length (w_kernel w) <= n)%nat /\ (length (w_stride w) <= n)%nat /\
  (length (w_padding w) <= n)%nat /\ (length (w_dilation w) <= n)%nat.

Lemma np_pad_left_ok n c l : (length l <= n)%nat -> np_pad_left n c l = Ok (fill_left n c l).
Proof. intros H. unfold np_pad_left. destruct (Nat.ltb_spec n (length l)); auto; lia. Qed.

Lemma fill_left_length n c l : (length l <= n)%nat -> length (fill_left n c l) = n.
Proof. intros H. unfold fill_left. rewrite app_length, repeat_length. lia. Qed.

Lemma expand_full n w : window_short n w -> expand_window n w = Ok (full_window n w).
Proof.
  intros (H1 & H2 & H3 & H4). unfold expand_window. now rewrite !np_pad_left_ok by auto.
Qed.

Lemma full_short n w : window_short n w -> window_short n (full_window n w).
Proof. intros (H1 & H2 & H3 & H4). repeat split; cbn; rewrite fill_left_length; auto. Qed.

Lemma fill_left_full n c l : length l = n -> fill_left n c l = l.
Proof. intros H. unfold fill_left. rewrite H, Nat.sub_diag. reflexivity. Qed.

Lemma full_full n w : window_short n w -> full_window n (full_window n w) = full_window n w.
Proof.
  intros (H1 & H2 & H3 & H4). unfold full_window. cbn [w_kernel w_stride w_padding w_dilation].
  f_equal; apply fill_left_full; now apply fill_left_length.
Qed.

Lemma exchange_info_full xs w act P idx shapes : window_short (length xs) w ->
  compute_exchange_info xs w act P idx shapes = compute_exchange_info xs (full_window (length xs) w) act P idx shapes.
Proof.
  intros H. unfold compute_exchange_info. destruct act; auto. cbn [negb].
  rewrite !expand_full by auto using full_short. cbn [rbind]. now rewrite full_full.
Qed.

Ltac show_window := cbv [window_fits nth full_window fill_left w_kernel w_stride w_padding w_dilation repeat length app
  Nat.sub layout_shape map zsum fold_right].

(** * C28 *)

Definition C28_statement : Prop :=
  forall (x_shape : list Z) (w : window) (P_shape : list Z) (shapes : option warray) (idx : list Z),
    length x_shape = length P_shape -> window_short (length x_shape) w -> valid_index P_shape idx ->
    let plan := fun index => compute_exchange_info x_shape w true P_shape index shapes in
    exists info, plan idx = Ok (Some info) /\
      forall i, (i < length P_shape)%nat ->
      (* across the boundary *)
      (nth i idx 0 = 0 -> fst (nth i (e_send info) (0, 0)) = 0) /\
      (nth i idx 0 = nth i P_shape 0 - 1 -> snd (nth i (e_send info) (0, 0)) = 0) /\
      (forall L, layout_ok L -> layout_workers L = P_shape -> layout_shape L = x_shape -> describes shapes L ->
         (nth i idx 0 = 0 -> fst (nth i (e_recv info) (0, 0)) = 0) /\
         (nth i idx 0 = nth i P_shape 0 - 1 -> snd (nth i (e_recv info) (0, 0)) = 0)) /\
      (* right neighbour *)
      (nth i idx 0 + 1 < nth i P_shape 0 ->
         exists right, plan (upd i (nth i idx 0 + 1) idx) = Ok (Some right) /\
           snd (nth i (e_send info) (0, 0)) = fst (nth i (e_recv right) (0, 0)) /\
           fst (nth i (e_send right) (0, 0)) = snd (nth i (e_recv info) (0, 0))).

Lemma upd_upd {A} i (a b : A) l : upd i a (upd i b l) = upd i a l.
Proof. revert i. induction l as [|x l IH]; intros [|i]; simpl; auto. now rewrite IH. Qed.

Lemma C28_proof : C28_statement.
Proof.
  intros xs w P shapes idx HX Hw Hi plan. unfold plan, compute_exchange_info. cbn [negb].
  rewrite expand_full by auto. cbn [rbind]. eexists. split; [reflexivity|].
  pose proof (valid_index_length _ _ Hi) as Hlen. pose proof Hi as Hi'. apply valid_index_nth in Hi' as [_ HV].
  intros i Hp. cbn [e_send e_recv]. rewrite vec_nth by auto. cbn [fst snd].
  assert (Hii : (i < length idx)%nat) by lia. rewrite !upd_nth_eq by auto.
  split; [|split; [|split]].
  - intros E. rewrite E. reflexivity.
  - intros E. rewrite E. destruct (Z.ltb_spec (nth i P 0 - 1 + 1) (nth i P 0)); auto; lia.
  - intros L HL HLw HLs HD. assert (HPos : pos_shape (layout_workers L)).
    { rewrite HLw. unfold pos_shape. apply Forall_forall. intros p Hin.
      apply In_nth with (d := 0) in Hin as (m & Hm & <-). specialize (HV m Hm). lia. }
    rewrite <- HLs, <- HLw in *. rewrite layout_workers_length in *.
    rewrite compute_halo_shape_nth by auto. rewrite workers_nth by auto. cbv zeta.
    cbn [fst snd]. set (e := nth i L []).
    pose proof (dim_halos_good e) as G.
    split; intros E; rewrite E.
    + unfold halo_left, need_left, dim_lo. cbn [Z.to_nat firstn zsum fold_right]. lia.
    + assert (0 < Z.of_nat (length e)). { pose proof (valid_nth L idx i Hi Hp). fold e in H. lia. }
      match goal with |- Z.max (halo_right _ ?k ?s ?p ?d _) 0 = 0 => specialize (G k s p d) end.
      destruct G as (_ & _ & _ & G). rewrite dim_halos_at in G by lia. exact G.
  - intros Hr. eexists. split; [reflexivity|]. cbn [e_send e_recv].
    rewrite vec_nth by auto. cbn [fst snd]. rewrite !upd_nth_eq by (rewrite ?upd_length; auto).
    rewrite !upd_upd. split.
    + destruct (Z.ltb_spec (nth i idx 0 + 1) (nth i P 0)); auto; lia.
    + specialize (HV i Hp). destruct (Z.ltb_spec (-1) (nth i idx 0 + 1 - 1)); [|lia].
      replace (nth i idx 0 + 1 - 1) with (nth i idx 0) by lia. now rewrite upd_same_nth.
Qed.

Theorem C28_send_equals_neighbour_halo : C28_statement.
Proof. exact C28_proof. Qed.
Print Assumptions C28_send_equals_neighbour_halo.

(** The partition of tests/test_halo_mixin.py: worker 1 sends one layer to the
    left, where worker 0 has a halo of one layer on its right. *)
Example C28_example :
  let w := mkwindow [2] [2] [0] [1] in
  let plan i := compute_exchange_info [1; 1; 10] w true [1; 1; 4] [0; 0; i] None in
  length [1; 1; 10] = length [1; 1; 4] /\ window_short 3 w /\ valid_index [1; 1; 4] [0; 0; 0] /\
  (exists a, plan 0 = Ok (Some a) /\ e_recv a = [(0, 0); (0, 0); (0, 1)] /\ e_send a = [(0, 0); (0, 0); (0, 0)] /\
             e_needed a = [(0, 1); (0, 1); (0, 4)]) /\
  (exists b, plan 1 = Ok (Some b) /\ e_recv b = [(0, 0); (0, 0); (0, 0)] /\ e_send b = [(0, 0); (0, 0); (1, 0)] /\
             e_needed b = [(0, 1); (0, 1); (1, 3)]).
Proof.
  cbv zeta. split; [reflexivity|]. split; [repeat split; simpl; lia|].
  split; [repeat constructor; lia|]. split; eexists; repeat split.
Qed.

(** * C29 *)

(** Input number [g] (an integer vector) is read by output number [o]. *)
Definition reads (w : window) (o g : list Z) : Prop :=
  exists t, valid_index (w_kernel w) t /\
    length o = length t /\ length g = length t /\
    forall j, (j < length t)%nat ->
      nth j g 0 = nth j (w_stride w) 0 * nth j o 0 - nth j (w_padding w) 0 + nth j (w_dilation w) 0 * nth j t 0.

(** [ny] counts the windows that fit, in each dimension. *)
Definition counts (x_shape : list Z) (w : window) (ny : list Z) : Prop :=
  length ny = length x_shape /\
  forall j, (j < length x_shape)%nat ->
    window_count (nth j x_shape 0) (nth j (w_kernel w) 0) (nth j (w_stride w) 0)
      (nth j (w_padding w) 0) (nth j (w_dilation w) 0) (nth j ny 0).

(** The setting: a tensor laid out by [L], a window with at least one output in
    every dimension, and the outputs split evenly over the same partition. *)
Definition halo_setting (L : layout) (w : window) (shapes : option warray) (ny : list Z) : Prop :=
  layout_ok L /\ pos_shape (layout_workers L) /\ describes shapes L /\
  window_short (length L) w /\ window_ok (length L) (full_window (length L) w) /\
  counts (layout_shape L) (full_window (length L) w) ny /\ Forall (fun n => 0 < n) ny.

(** Every input read by an output of worker [idx] is in its extended block. *)
Definition sufficient (L : layout) (w : window) (ny idx : list Z) (halo : list (Z * Z)) : Prop :=
  let Ly := balanced ny (layout_workers L) in
  forall o g, in_box (block_lo Ly idx) (block_hi Ly idx) o -> reads w o g -> valid_index (layout_shape L) g ->
    in_box (vsub (block_lo L idx) (map fst halo)) (vadd (block_hi L idx) (map snd halo)) g.

(** In dimension [j] the outermost halo layers are read by an output of the
    worker. *)
Definition minimal (L : layout) (w : window) (ny idx : list Z) (halo : list (Z * Z)) (j : nat) : Prop :=
  let Ly := balanced ny (layout_workers L) in
  let read g := exists o t,
    nth j (block_lo Ly idx) 0 <= o < nth j (block_hi Ly idx) 0 /\ 0 <= t < nth j (w_kernel w) 0 /\
    g = nth j (w_stride w) 0 * o - nth j (w_padding w) 0 + nth j (w_dilation w) 0 * t in
  (0 < fst (nth j halo (0, 0)) -> read (nth j (block_lo L idx) 0 - fst (nth j halo (0, 0)))) /\
  (0 < snd (nth j halo (0, 0)) -> read (nth j (block_hi L idx) 0 + snd (nth j halo (0, 0)) - 1)).

Definition C29_statement (extra : layout -> window -> list Z -> list Z -> nat -> Prop) : Prop :=
  forall L w shapes ny idx, halo_setting L w shapes ny -> valid_index (layout_workers L) idx ->
    exists info,
      compute_exchange_info (layout_shape L) w true (layout_workers L) idx shapes = Ok (Some info) /\
      sufficient L (full_window (length L) w) ny idx (e_halo info) /\
      forall j, (j < length L)%nat -> extra L (full_window (length L) w) ny idx j ->
        minimal L (full_window (length L) w) ny idx (e_halo info) j.

(** Minimality is proved for dimensions in which the worker has an output, and
    which either have no padding (as in the layers, which pad explicitly before
    they ask for halos) or no dilation and a padding smaller than the kernel. *)
Definition tame (L : layout) (w : window) (ny idx : list Z) (j : nat) : Prop :=
  0 < nth j (block_shape (balanced ny (layout_workers L)) idx) 0 /\
  (nth j (w_padding w) 0 = 0 \/
   nth j (w_dilation w) 0 = 1 /\ nth j (w_padding w) 0 < nth j (w_kernel w) 0).

Section C29.
  Variables (L : layout) (w : window) (shapes : option warray) (ny idx : list Z).
  Hypothesis HL : layout_ok L.
  Hypothesis HP : pos_shape (layout_workers L).
  Hypothesis Hd : describes shapes L.
  Hypothesis Hw : window_ok (length L) w.
  Hypothesis Hc : counts (layout_shape L) w ny.
  Hypothesis Hny : Forall (fun n => 0 < n) ny.
  Hypothesis Hi : valid_index (layout_workers L) idx.
  Let Ly := balanced ny (layout_workers L).

  Lemma ny_length : length ny = length L.
  Proof. destruct Hc as [E _]. now rewrite layout_shape_length in E. Qed.

  Lemma ny_nth j : (j < length L)%nat ->
    nth j ny 0 = out_extent (zsum (nth j L [])) (nth j (w_kernel w) 0) (nth j (w_stride w) 0)
                   (nth j (w_padding w) 0) (nth j (w_dilation w) 0).
  Proof.
    intros Hj. destruct Hc as [E C]. rewrite layout_shape_length in E, C. specialize (C j Hj).
    rewrite xshape_nth in C by auto. destruct (window_nth _ _ _ Hw Hj) as (_ & Hs & _).
    symmetry. apply out_extent_window; auto. rewrite Forall_forall in Hny. apply Hny. apply nth_In. lia.
  Qed.

  Lemma ny_pos j : (j < length L)%nat -> 0 < nth j ny 0.
  Proof. intros Hj. rewrite Forall_forall in Hny. apply Hny. apply nth_In. rewrite ny_length. auto. Qed.

  Lemma ny_shape_len : length ny = length (layout_workers L).
  Proof. now rewrite ny_length, layout_workers_length. Qed.

  Lemma ylo_nth j : (j < length L)%nat ->
    nth j (block_lo Ly idx) 0 = start1 (Z.of_nat (length (nth j L []))) (nth j idx 0) (nth j ny 0).
  Proof.
    intros Hj. pose proof (valid_length L idx Hi) as Hlen. unfold Ly.
    rewrite balanced_block_lo by (auto using ny_shape_len).
    unfold compute_start_index. apply sub3_nth; auto using ny_length.
  Qed.

  Lemma ysh_nth j : (j < length L)%nat ->
    nth j (block_shape Ly idx) 0 = subshape1 (Z.of_nat (length (nth j L []))) (nth j idx 0) (nth j ny 0).
  Proof.
    intros Hj. pose proof (valid_length L idx Hi) as Hlen. unfold Ly.
    rewrite balanced_block_shape by (auto using ny_shape_len).
    unfold compute_subshape. apply sub3_nth; auto using ny_length.
  Qed.

  Lemma Ly_length : length Ly = length L.
  Proof. unfold Ly, balanced. rewrite map2_length; rewrite ny_length; auto. now rewrite layout_workers_length. Qed.

  Lemma yhi_nth j : (j < length L)%nat ->
    nth j (block_hi Ly idx) 0 = nth j (block_lo Ly idx) 0 + nth j (block_shape Ly idx) 0.
  Proof.
    intros Hj. pose proof (valid_length L idx Hi) as Hlen.
    assert (length idx = length Ly) by (rewrite Ly_length; auto).
    rewrite block_hi_lo by auto. unfold vadd.
    rewrite map2_nth with (da := 0) (db := 0); auto; rewrite block_lo_length; auto; rewrite ?Ly_length; auto.
    now rewrite block_shape_length, Ly_length by auto.
  Qed.

  Lemma out_last j : (j < length L)%nat -> 0 < nth j (block_shape Ly idx) 0 ->
    nth j (w_stride w) 0 * (nth j (block_hi Ly idx) 0 - 1) + nth j (w_dilation w) 0 * (nth j (w_kernel w) 0 - 1)
    < zsum (nth j L []) + 2 * nth j (w_padding w) 0.
  Proof.
    intros Hj Hpos. pose proof (valid_nth L idx j Hi Hj) as Hb.
    rewrite yhi_nth, ylo_nth, ysh_nth in * by auto.
    pose proof (owner1_inside (Z.of_nat (length (nth j L []))) (nth j ny 0) (nth j idx 0) ltac:(lia)
                  ltac:(pose proof (ny_pos j Hj); lia) Hb) as [B1 B2].
    destruct Hc as [_ C]. rewrite layout_shape_length in C. specialize (C j Hj). rewrite xshape_nth in C by auto.
    apply (proj2 C); lia.
  Qed.

  Lemma xhi_nth j : (j < length L)%nat ->
    nth j (block_hi L idx) 0 = nth j (block_lo L idx) 0 + nth j (block_shape L idx) 0.
  Proof.
    intros Hj. pose proof (valid_length L idx Hi) as Hlen.
    rewrite block_hi_lo by auto. unfold vadd.
    rewrite map2_nth with (da := 0) (db := 0); auto; rewrite block_lo_length; auto.
    now rewrite block_shape_length by auto.
  Qed.

  Let halo := recv_plan (layer_halos L w) idx.

  Lemma halo_nth j : (j < length L)%nat ->
    fst (nth j halo (0, 0)) =
      Z.max (nth j (block_lo L idx) 0 -
             Z.max 0 (nth j (w_stride w) 0 * nth j (block_lo Ly idx) 0 - nth j (w_padding w) 0)) 0 /\
    snd (nth j halo (0, 0)) =
      Z.max (Z.min (zsum (nth j L []) - 1)
               (nth j (w_stride w) 0 * (nth j (block_hi Ly idx) 0 - 1)
                + nth j (w_dilation w) 0 * (nth j (w_kernel w) 0 - 1) - nth j (w_padding w) 0)
             - (nth j (block_hi L idx) 0 - 1)) 0.
  Proof.
    intros Hj. pose proof (valid_length L idx Hi) as Hlen. unfold halo.
    rewrite recv_plan_nth by (rewrite layer_halos_length; auto). rewrite layer_halos_nth by auto.
    rewrite dim_halos_at by (now apply valid_nth). cbn [fst snd].
    unfold halo_left, halo_right, need_left, need_right. rewrite <- ny_nth by auto.
    rewrite yhi_nth, xhi_nth, ylo_nth, ysh_nth, block_lo_nth, block_shape_nth by auto. split; lia.
  Qed.

  Lemma halo_length : length halo = length L.
  Proof.
    pose proof (valid_length L idx Hi) as Hlen. unfold halo, recv_plan.
    rewrite map2_length; rewrite layer_halos_length; auto.
  Qed.

  Lemma is_sufficient : sufficient L w ny idx halo.
  Proof.
    intros o g Ho (t & Ht & Hot & Hgt & Hg) Hv.
    pose proof (valid_length L idx Hi) as Hlen.
    assert (HLg : length g = length L).
    { apply valid_index_length in Hv. now rewrite layout_shape_length in Hv. }
    unfold in_box, vsub, vadd.
    rewrite !map2_length; rewrite ?map_length, ?block_lo_length, ?block_hi_length, ?halo_length; auto.
    split; [auto|]. split; [auto|]. intros j Hj.
    rewrite !map2_nth with (da := 0) (db := 0);
      rewrite ?map_length, ?block_lo_length, ?block_hi_length, ?halo_length; auto; try lia.
    assert (Hj' : (j < length L)%nat) by lia.
    change (nth j (map fst halo) 0) with (nth j (map fst halo) (fst (0, 0))).
    change (nth j (map snd halo) 0) with (nth j (map snd halo) (snd (0, 0))).
    rewrite (map_nth fst), (map_nth snd).
    destruct (halo_nth j Hj') as [E1 E2]. rewrite E1, E2.
    specialize (Hg j ltac:(lia)).
    apply valid_index_nth in Hv as [_ Hv]. specialize (Hv j).
    rewrite layout_shape_length in Hv. specialize (Hv Hj'). rewrite xshape_nth in Hv by auto.
    apply valid_index_nth in Ht as [Ht0 Ht]. specialize (Ht j ltac:(lia)).
    destruct Ho as (_ & _ & Ho). specialize (Ho j ltac:(lia)).
    fold Ly in Ho. destruct (window_nth _ _ _ Hw Hj') as (Hk & Hs & Hp & Hdl).
    assert (nth j (w_stride w) 0 * nth j (block_lo Ly idx) 0 <= nth j (w_stride w) 0 * nth j o 0)
      by (apply Z.mul_le_mono_nonneg_l; lia).
    assert (nth j (w_stride w) 0 * nth j o 0 <= nth j (w_stride w) 0 * (nth j (block_hi Ly idx) 0 - 1))
      by (apply Z.mul_le_mono_nonneg_l; lia).
    assert (0 <= nth j (w_dilation w) 0 * nth j t 0) by (apply Z.mul_nonneg_nonneg; lia).
    assert (nth j (w_dilation w) 0 * nth j t 0 <= nth j (w_dilation w) 0 * (nth j (w_kernel w) 0 - 1))
      by (apply Z.mul_le_mono_nonneg_l; lia).
    lia.
  Qed.

  Lemma is_minimal j : (j < length L)%nat -> tame L w ny idx j -> minimal L w ny idx halo j.
  Proof.
    intros Hj [Hpos Hcase]. fold Ly in Hpos. unfold minimal. fold Ly. cbv zeta.
    destruct (halo_nth j Hj) as [E1 E2].
    pose proof (out_last j Hj Hpos) as Hlast. pose proof (yhi_nth j Hj) as Hh.
    destruct (window_nth _ _ _ Hw Hj) as (Hk & Hs & Hp & Hdl).
    pose proof (valid_nth L idx j Hi Hj) as Hb.
    assert (Hylo : 0 <= nth j (block_lo Ly idx) 0).
    { rewrite ylo_nth by auto.
      apply (owner1_inside (Z.of_nat (length (nth j L []))) (nth j ny 0) (nth j idx 0)); try lia.
      pose proof (ny_pos j Hj); lia. }
    revert E1 E2 Hlast Hcase Hk Hs Hp Hdl. generalize (nth j (w_kernel w) 0) as k, (nth j (w_stride w) 0) as s,
      (nth j (w_padding w) 0) as p, (nth j (w_dilation w) 0) as d. intros k s p d E1 E2 Hlast Hcase Hk Hs Hp Hdl.
    assert (0 <= s * nth j (block_lo Ly idx) 0) by (apply Z.mul_nonneg_nonneg; lia).
    assert (s * nth j (block_lo Ly idx) 0 <= s * (nth j (block_hi Ly idx) 0 - 1))
      by (apply Z.mul_le_mono_nonneg_l; lia).
    split; intros Hh0.
    - rewrite E1 in *. destruct (Z_le_gt_dec 0 (s * nth j (block_lo Ly idx) 0 - p)) as [Hge|Hlt].
      + exists (nth j (block_lo Ly idx) 0), 0. lia.
      + destruct Hcase as [-> | [-> Hpk]]; [lia|].
        exists (nth j (block_lo Ly idx) 0), (p - s * nth j (block_lo Ly idx) 0). lia.
    - rewrite E2 in *.
      destruct (Z_le_gt_dec (s * (nth j (block_hi Ly idx) 0 - 1) + d * (k - 1) - p) (zsum (nth j L []) - 1)) as [Hle|Hgt].
      + exists (nth j (block_hi Ly idx) 0 - 1), (k - 1). lia.
      + destruct Hcase as [-> | [-> Hpk]]; [lia|].
        exists (nth j (block_hi Ly idx) 0 - 1), (zsum (nth j L []) - 1 - (s * (nth j (block_hi Ly idx) 0 - 1) - p)).
        lia.
  Qed.
End C29.

Lemma C29_proof : C29_statement tame.
Proof.
  intros L w shapes ny idx (H1 & H2 & H3 & H4 & H5 & H6 & H7) Hi.
  eexists. split.
  - rewrite exchange_info_full by (now rewrite layout_shape_length).
    rewrite layout_shape_length. apply (exchange_info_plan L); auto.
  - cbn [e_halo]. split; [now apply is_sufficient|]. intros j Hj Ht. now apply is_minimal.
Qed.

(** Sufficiency is proved in full; minimality with the restriction [tame]. *)
Theorem C29_halos_sufficient_minimal_partial : C29_statement tame.
Proof. exact C29_proof. Qed.
Print Assumptions C29_halos_sufficient_minimal_partial.

(** Without the restriction: three workers, ten inputs, a kernel of nine points.
    There are two outputs, so the third worker has none, but it receives five
    layers from the left. *)
Theorem C29_halos_minimal_refuted : ~ C29_statement (fun _ _ _ _ _ => True).
Proof.
  intros H. specialize (H [[4; 3; 3]] (mkwindow [9] [1] [0] [1]) None [2] [2]).
  destruct H as (info & E & _ & M).
  - split; [|split; [|split; [|split; [|split; [|split]]]]].
    + repeat constructor; lia.
    + repeat constructor; lia.
    + reflexivity.
    + repeat split; simpl; lia.
    + repeat split; repeat constructor; discriminate.
    + split; auto. intros [|j] Hj; [|simpl in Hj; lia]. cbn [nth layout_shape map].
      split; [lia|]. intros o Ho. show_window. lia.
    + repeat constructor.
  - repeat constructor; lia.
  - vm_compute in E. inv E. specialize (M 0%nat (Nat.lt_0_succ _) I). destruct M as [M _].
    destruct M as (o & t & Ho & Ht & _); [cbn; lia|].
    change (2 <= o < 2) in Ho. lia.
Qed.
Print Assumptions C29_halos_minimal_refuted.

(** A second reason: with a dilation the clamped end need not be read.  Two
    inputs on two workers, padding 3, stride 2, dilation 2, kernel 3: output 1
    on worker 1 reads the inputs -1, 1 and 3, but the halo contains input 0. *)
Example C29_dilation_witness :
  let w := mkwindow [3] [2] [3] [2] in
  halo_setting [[1; 1]] w None [2] /\
  (exists info, compute_exchange_info [2] w true [2] [1] None = Ok (Some info) /\ e_halo info = [(1, 0)]) /\
  forall o t, 1 <= o < 2 -> 0 <= t < 3 -> 2 * o - 3 + 2 * t <> 0.
Proof.
  cbv zeta. split; [|split].
  - split; [|split; [|split; [|split; [|split; [|split]]]]].
    + repeat constructor; lia.
    + repeat constructor; lia.
    + reflexivity.
    + repeat split; simpl; lia.
    + repeat split; repeat constructor; discriminate.
    + split; auto. intros [|j] Hj; [|simpl in Hj; lia]. cbn [nth layout_shape map].
      split; [lia|]. intros o Ho. show_window. lia.
    + repeat constructor.
  - eexists. split; reflexivity.
  - lia.
Qed.

(** An instance of the positive part: an unbalanced layout, kernel 3, stride 2. *)
Example C29_example :
  let w := mkwindow [3] [2] [1] [1] in
  let L := [[1; 1]; [5; 2; 6]] in
  let shapes := Some (block_shape L) in
  halo_setting L w shapes [2; 7] /\ valid_index (layout_workers L) [1; 1] /\
  tame L (full_window 2 w) [2; 7] [1; 1] 1 /\
  exists info, compute_exchange_info [2; 13] w true [2; 3] [1; 1] shapes = Ok (Some info) /\
    e_halo info = [(0, 0); (0, 3)].
Proof.
  cbv zeta. split; [|split; [|split]].
  - split; [|split; [|split; [|split; [|split; [|split]]]]].
    + repeat constructor; lia.
    + repeat constructor; lia.
    + intros idx _. reflexivity.
    + repeat split; simpl; lia.
    + repeat split; repeat constructor; discriminate.
    + split; auto. intros [|[|j]] Hj; [| |simpl in Hj; lia]; cbn [nth layout_shape map];
        (split; [cbn; lia|]); intros o Ho; show_window; lia.
    + repeat constructor.
  - repeat constructor; cbn; lia.
  - split; [reflexivity|]. right. split; reflexivity.
  - eexists. split; reflexivity.
Qed.
