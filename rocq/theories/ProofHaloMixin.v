(** Proofs about nn/mixins/halo_mixin.py. *)

From Verif Require Import Prelude SpecIndex SpecLayout SpecHalo ModelSlicing ModelDecomposition ModelPartition
  ProofSlicing ProofDecomposition ModelHaloMixin.

Lemma vec_length {A} n (f : nat -> A) : length (vec n f) = n.
Proof. unfold vec. now rewrite map_length, seq_length. Qed.

Lemma vec_nth {A} n (f : nat -> A) j d : (j < n)%nat -> nth j (vec n f) d = f j.
Proof. apply nth_map_seq. Qed.

(** * One dimension *)

Lemma out_extent_count n k s p d o : 0 < s -> 0 <= o ->
  (o < out_extent n k s p d <-> window_fits n k s p d o).
Proof.
  intros Hs Ho. unfold out_extent, window_fits. set (a := n + 2 * p - d * (k - 1) - 1).
  pose proof (Z.div_mod a s ltac:(lia)) as E. pose proof (Z.mod_pos_bound a s Hs) as B.
  split.
  - intros H. assert (s * o <= s * (a / s)) by (apply Z.mul_le_mono_nonneg_l; lia). unfold a in *. lia.
  - intros H. destruct (Z_lt_ge_dec (a / s) o) as [Hlt|]; [exfalso|lia].
    assert (s * (a / s + 1) <= s * o) by (apply Z.mul_le_mono_nonneg_l; lia). unfold a in *. lia.
Qed.

Lemma window_count_unique n k s p d a b :
  window_count n k s p d a -> window_count n k s p d b -> a = b.
Proof.
  intros [Ha Ca] [Hb Cb]. destruct (Z.lt_trichotomy a b) as [H|[H|H]]; auto; exfalso.
  - assert (a < a); [|lia]. apply Ca; auto. apply Cb; auto.
  - assert (b < b); [|lia]. apply Cb; auto. apply Ca; auto.
Qed.

Lemma out_extent_window n k s p d ny : 0 < s -> 0 < ny -> window_count n k s p d ny ->
  out_extent n k s p d = ny.
Proof.
  intros Hs Hn H. apply (window_count_unique n k s p d); auto. split.
  - enough (0 < out_extent n k s p d) by lia. apply out_extent_count; [lia|lia|]. now apply H.
  - intros o Ho. now apply out_extent_count.
Qed.

Section Dim.
  Variables (e : list Z) (k s p d : Z).
  Let n := zsum e.
  Let P := Z.of_nat (length e).
  Let ny := out_extent n k s p d.

  Definition need_left (i : Z) : Z := Z.max 0 (s * start1 P i ny - p).
  Definition need_right (i : Z) : Z := Z.min (n - 1) (s * (start1 P i ny + subshape1 P i ny - 1) + d * (k - 1) - p).
  Definition dim_lo (i : Z) : Z := zsum (firstn (Z.to_nat i) e).
  Definition dim_hi (i : Z) : Z := zsum (firstn (S (Z.to_nat i)) e).
  Definition halo_left (i : Z) : Z := dim_lo i - need_left i.
  Definition halo_right (i : Z) : Z := need_right i - (dim_lo i + nth (Z.to_nat i) e 0 - 1).

  Definition dim_halos : list (Z * Z) := map (fun i => (Z.max (halo_left i) 0, Z.max (halo_right i) 0)) (zrange P).

  Lemma dim_halos_at i : 0 <= i < P -> halo_at dim_halos i = (Z.max (halo_left i) 0, Z.max (halo_right i) 0).
  Proof.
    intros H. unfold halo_at, dim_halos. erewrite nth_error_nth; [reflexivity|].
    erewrite map_nth_error; [|apply zrange_nth_error; lia]. now rewrite Z2Nat.id by lia.
  Qed.

  Lemma dim_halos_out i : P <= i -> halo_at dim_halos i = (0, 0).
  Proof.
    intros H. unfold halo_at. apply nth_overflow. unfold dim_halos. rewrite map_length, zrange_length. lia.
  Qed.

  Lemma dim_hi_lo i : dim_hi i = dim_lo i + nth (Z.to_nat i) e 0.
  Proof. unfold dim_hi, dim_lo. apply zsum_firstn_S. Qed.

  Lemma dim_lo_next i : 0 <= i -> dim_lo (i + 1) = dim_lo i + nth (Z.to_nat i) e 0.
  Proof. intros H. rewrite <- dim_hi_lo. unfold dim_lo, dim_hi. do 2 f_equal. lia. Qed.

  Hypothesis He : Forall (fun x => 0 <= x) e.
  Hypothesis Hs : 0 <= s.
  Hypothesis Hny : 0 <= ny.

  Lemma dim_lo_bound i : 0 <= dim_lo i <= n.
  Proof. unfold dim_lo, n. apply zsum_firstn_le. auto. Qed.

  Lemma need_left_mono i : 0 < P -> 0 <= i -> need_left i <= need_left (i + 1).
  Proof.
    intros HP Hi. unfold need_left. pose proof (start1_mono P i (i + 1) ny HP Hny ltac:(lia)).
    assert (s * start1 P i ny <= s * start1 P (i + 1) ny) by (apply Z.mul_le_mono_nonneg_l; lia). lia.
  Qed.

  Lemma need_right_mono i : 0 < P -> 0 <= i -> need_right i <= need_right (i + 1).
  Proof.
    intros HP Hi. unfold need_right. rewrite <- !start1_step by lia.
    pose proof (start1_mono P (i + 1) (i + 1 + 1) ny HP Hny ltac:(lia)).
    assert (s * (start1 P (i + 1) ny - 1) <= s * (start1 P (i + 1 + 1) ny - 1)) by (apply Z.mul_le_mono_nonneg_l; lia).
    lia.
  Qed.

  Lemma dim_halos_good : dim_halos_ok e dim_halos.
  Proof.
    unfold dim_halos_ok. split; [|split; [|split]].
    - unfold dim_halos. rewrite map_length, zrange_length. unfold P. lia.
    - apply Forall_forall. intros x Hx. unfold dim_halos in Hx. apply in_map_iff in Hx as (i & <- & _).
      cbn [fst snd]. lia.
    - destruct (Z_lt_ge_dec 0 P).
      + rewrite dim_halos_at by lia. cbn [fst]. unfold halo_left, need_left, dim_lo. cbn [Z.to_nat firstn zsum fold_right]. lia.
      + now rewrite dim_halos_out by lia.
    - fold P. destruct (Z_lt_ge_dec 0 P).
      + rewrite dim_halos_at by lia. cbn [snd]. unfold halo_right.
        assert (dim_lo (P - 1) + nth (Z.to_nat (P - 1)) e 0 = n).
        { rewrite <- dim_lo_next by lia. unfold dim_lo. replace (Z.to_nat (P - 1 + 1)) with (length e) by (unfold P; lia).
          now rewrite firstn_all. }
        unfold need_right. lia.
      + unfold halo_at. rewrite nth_overflow; [reflexivity|].
        unfold dim_halos. rewrite map_length, zrange_length. lia.
  Qed.

  Lemma dim_halos_fits : dim_fits e dim_halos.
  Proof.
    intros i Hi Hi1. fold P in Hi1. rewrite !dim_halos_at by lia. cbn [fst snd].
    pose proof (need_left_mono i ltac:(lia) Hi). pose proof (need_right_mono i ltac:(lia) Hi).
    pose proof (dim_lo_next i Hi). pose proof (dim_lo_next (i + 1) ltac:(lia)).
    assert (G : forall m, 0 <= nth m e 0).
    { intros m. apply nth_nonneg. auto. }
    pose proof (G (Z.to_nat i)). pose proof (G (Z.to_nat (i + 1))).
    unfold halo_left, halo_right. lia.
  Qed.
End Dim.

(** * All dimensions *)

(** A layer's window parameters are usable in every dimension of a tensor. *)
Definition window_ok (dim : nat) (w : window) : Prop :=
  length (w_kernel w) = dim /\ length (w_stride w) = dim /\
  length (w_padding w) = dim /\ length (w_dilation w) = dim /\
  Forall (fun x => 0 < x) (w_kernel w) /\ Forall (fun x => 0 < x) (w_stride w) /\
  Forall (fun x => 0 <= x) (w_padding w) /\ Forall (fun x => 0 < x) (w_dilation w).

Lemma window_nth dim w j : window_ok dim w -> (j < dim)%nat ->
  0 < nth j (w_kernel w) 0 /\ 0 < nth j (w_stride w) 0 /\ 0 <= nth j (w_padding w) 0 /\ 0 < nth j (w_dilation w) 0.
Proof.
  intros (H1 & H2 & H3 & H4 & F1 & F2 & F3 & F4) Hj. rewrite Forall_forall in F1, F2, F3, F4.
  repeat split; [apply F1|apply F2|apply F3|apply F4]; apply nth_In; lia.
Qed.

(** [shapes] describes the layout: either the local shapes of all workers, or
    nothing when the layout is the balanced one. *)
Definition describes (shapes : option warray) (L : layout) : Prop :=
  match shapes with
  | Some f => forall idx, valid_index (layout_workers L) idx -> f idx = block_shape L idx
  | None => L = balanced (layout_shape L) (layout_workers L)
  end.

Definition layer_halos (L : layout) (w : window) : halos :=
  vec (length L) (fun j => dim_halos (nth j L []) (nth j (w_kernel w) 0) (nth j (w_stride w) 0)
                             (nth j (w_padding w) 0) (nth j (w_dilation w) 0)).

Section All.
  Variables (L : layout) (w : window) (shapes : option warray).
  Hypothesis HL : layout_ok L.
  Hypothesis HP : pos_shape (layout_workers L).
  Hypothesis Hd : describes shapes L.

  Let Psh := layout_workers L.
  Let xs := layout_shape L.

  Lemma workers_nth j : (j < length L)%nat -> nth j Psh 0 = Z.of_nat (length (nth j L [])).
  Proof. intros H. unfold Psh, layout_workers. apply (map_nth (fun e : list Z => Z.of_nat (length e)) L [] j). Qed.

  Lemma xshape_nth j : nth j xs 0 = zsum (nth j L []).
  Proof. unfold xs, layout_shape. apply (map_nth zsum L [] j). Qed.

  Lemma valid_nth idx j : valid_index Psh idx -> (j < length L)%nat ->
    0 <= nth j idx 0 < Z.of_nat (length (nth j L [])).
  Proof.
    intros H Hj. apply valid_index_nth in H as [H1 H2]. rewrite <- workers_nth by auto. apply H2.
    unfold Psh. now rewrite layout_workers_length.
  Qed.

  Lemma valid_length idx : valid_index Psh idx -> length idx = length L.
  Proof. intros H. apply valid_index_length in H. unfold Psh in H. now rewrite layout_workers_length in H. Qed.

  Lemma block_shape_nth idx j : length idx = length L -> (j < length L)%nat ->
    nth j (block_shape L idx) 0 = nth (Z.to_nat (nth j idx 0)) (nth j L []) 0.
  Proof. intros H Hj. unfold block_shape. now rewrite map2_nth with (da := []) (db := 0) by lia. Qed.

  Lemma block_lo_nth idx j : length idx = length L -> (j < length L)%nat ->
    nth j (block_lo L idx) 0 = dim_lo (nth j L []) (nth j idx 0).
  Proof. intros H Hj. unfold block_lo. now rewrite map2_nth with (da := []) (db := 0) by lia. Qed.

  Lemma local_shape_eq idx : valid_index Psh idx ->
    match shapes with Some f => f idx | None => compute_subshape Psh idx xs end = block_shape L idx.
  Proof.
    intros Hi. unfold describes in Hd. destruct shapes as [f|]; [now apply Hd|].
    rewrite <- balanced_block_shape; [unfold xs, Psh; now rewrite <- Hd|auto| |auto].
    unfold xs, Psh. now rewrite layout_workers_length, layout_shape_length.
  Qed.

  Lemma local_start_eq idx : valid_index Psh idx ->
    match shapes with Some f => compute_local_start_index idx f | None => compute_start_index Psh idx xs end
    = block_lo L idx.
  Proof.
    intros Hi. pose proof (valid_length idx Hi) as Hlen.
    unfold describes in Hd. destruct shapes as [f|].
    - apply list_eq_nth with (d := 0).
      + unfold compute_local_start_index. now rewrite vec_length, block_lo_length.
      + intros j Hj. unfold compute_local_start_index in *. rewrite vec_length in Hj. rewrite vec_nth by auto.
        rewrite block_lo_nth by lia. unfold dim_lo.
        pose proof (valid_nth idx j Hi ltac:(lia)) as Hb.
        rewrite <- zsum_nth_prefix by lia. f_equal. apply map_ext_in. intros i Hi'. apply in_zrange in Hi'.
        rewrite Hd.
        * rewrite block_shape_nth by (rewrite ?upd_length, ?map_length; lia).
          now rewrite upd_nth_eq by (rewrite map_length; lia).
        * apply valid_index_nth. rewrite upd_length, map_length. split.
          { fold Psh. unfold Psh. rewrite layout_workers_length. lia. }
          intros m Hm. fold Psh in Hm |- *. unfold Psh in Hm. rewrite layout_workers_length in Hm.
          rewrite workers_nth by auto. destruct (Nat.eq_dec j m) as [->|Hne].
          { rewrite upd_nth_eq by (rewrite map_length; lia). lia. }
          rewrite upd_nth_neq by auto.
          replace (nth m (map (fun _ : Z => 0) idx) 0) with 0.
          { pose proof (valid_nth idx m Hi Hm). lia. }
          symmetry. apply (map_nth (fun _ : Z => 0) idx 0 m).
    - rewrite <- balanced_block_lo; [unfold xs, Psh; now rewrite <- Hd|auto| |auto].
      unfold xs, Psh. now rewrite layout_workers_length, layout_shape_length.
  Qed.

  Lemma sub3_nth (f : Z -> Z -> Z -> Z) idx sh j : length idx = length L -> length sh = length L -> (j < length L)%nat ->
    nth j (map3 f Psh idx sh) 0 = f (Z.of_nat (length (nth j L []))) (nth j idx 0) (nth j sh 0).
  Proof.
    intros H1 H2 Hj. assert (length Psh = length L) by apply layout_workers_length.
    rewrite map3_nth with (da := 0) (db := 0) (dc := 0) by lia. now rewrite workers_nth.
  Qed.

  Lemma compute_out_shape_length : length (compute_out_shape xs w) = length L.
  Proof. unfold compute_out_shape. rewrite vec_length. apply layout_shape_length. Qed.

  Lemma compute_out_shape_nth j : (j < length L)%nat ->
    nth j (compute_out_shape xs w) 0 =
    out_extent (zsum (nth j L [])) (nth j (w_kernel w) 0) (nth j (w_stride w) 0) (nth j (w_padding w) 0)
      (nth j (w_dilation w) 0).
  Proof.
    intros Hj. unfold compute_out_shape. rewrite vec_nth; [now rewrite xshape_nth|].
    unfold xs. now rewrite layout_shape_length.
  Qed.

  Lemma compute_halo_shape_length b idx : length (compute_halo_shape b Psh idx xs w shapes) = length L.
  Proof. unfold compute_halo_shape. rewrite vec_length. apply layout_shape_length. Qed.

  Lemma compute_halo_shape_nth b idx j : valid_index Psh idx -> (j < length L)%nat ->
    nth j (compute_halo_shape b Psh idx xs w shapes) (0, 0) =
    let f h := h (nth j L []) (nth j (w_kernel w) 0) (nth j (w_stride w) 0) (nth j (w_padding w) 0)
                 (nth j (w_dilation w) 0) (nth j idx 0) in
    if b then (Z.max (f halo_left) 0, Z.max (f halo_right) 0) else (f halo_left, f halo_right).
  Proof.
    intros Hi Hj. pose proof (valid_length idx Hi) as Hlen. unfold compute_halo_shape.
    rewrite local_shape_eq, local_start_eq by auto.
    rewrite vec_nth by (unfold xs; now rewrite layout_shape_length).
    cbv zeta. rewrite block_lo_nth, block_shape_nth by auto.
    unfold compute_subshape, compute_start_index. rewrite !sub3_nth by (auto using compute_out_shape_length).
    rewrite compute_out_shape_nth, xshape_nth by auto.
    unfold halo_left, halo_right, need_left, need_right, min_input, max_input. destruct b; reflexivity.
  Qed.

  Lemma layer_halos_nth j : (j < length L)%nat ->
    nth j (layer_halos L w) [] = dim_halos (nth j L []) (nth j (w_kernel w) 0) (nth j (w_stride w) 0)
                             (nth j (w_padding w) 0) (nth j (w_dilation w) 0).
  Proof. intros. unfold layer_halos. now rewrite vec_nth. Qed.

  Lemma layer_halos_length : length (layer_halos L w) = length L.
  Proof. unfold layer_halos. apply vec_length. Qed.

  Lemma recv_plan_nth (H : halos) idx j : length H = length idx -> (j < length H)%nat ->
    nth j (recv_plan H idx) (0, 0) = halo_at (nth j H []) (nth j idx 0).
  Proof. intros H1 Hj. unfold recv_plan. now rewrite map2_nth with (da := []) (db := 0) by lia. Qed.

  Lemma send_plan_nth (H : halos) idx j : length H = length idx -> (j < length H)%nat ->
    nth j (send_plan H idx) (0, 0) =
    (if 0 <? nth j idx 0 then snd (halo_at (nth j H []) (nth j idx 0 - 1)) else 0,
     fst (halo_at (nth j H []) (nth j idx 0 + 1))).
  Proof. intros H1 Hj. unfold send_plan. now rewrite map2_nth with (da := []) (db := 0) by lia. Qed.

  Lemma halo_shape_plan idx : valid_index Psh idx ->
    compute_halo_shape true Psh idx xs w shapes = recv_plan (layer_halos L w) idx.
  Proof.
    intros Hi. pose proof (valid_length idx Hi) as Hlen.
    apply list_eq_nth with (d := (0, 0)).
    - rewrite compute_halo_shape_length. unfold recv_plan. rewrite map2_length; rewrite layer_halos_length; auto.
    - intros j Hj. rewrite compute_halo_shape_length in Hj. rewrite compute_halo_shape_nth by auto.
      rewrite recv_plan_nth by (rewrite layer_halos_length; auto). rewrite layer_halos_nth by auto.
      rewrite dim_halos_at by (now apply valid_nth). reflexivity.
  Qed.

  Lemma upd_valid idx j i : valid_index Psh idx -> (j < length L)%nat ->
    0 <= i < Z.of_nat (length (nth j L [])) -> valid_index Psh (upd j i idx).
  Proof.
    intros Hi Hj Hb. pose proof (valid_length idx Hi) as Hlen. apply valid_index_nth in Hi as [H1 H2].
    apply valid_index_nth. rewrite upd_length. split; auto. intros m Hm.
    destruct (Nat.eq_dec j m) as [->|Hne].
    - rewrite upd_nth_eq by lia. rewrite workers_nth by auto. auto.
    - rewrite upd_nth_neq by auto. now apply H2.
  Qed.

  Lemma halo_next idx j i : valid_index Psh idx -> (j < length L)%nat -> length idx = length L ->
    0 <= i < Z.of_nat (length (nth j L [])) ->
    nth j (compute_halo_shape true Psh (upd j i idx) xs w shapes) (0, 0) = halo_at (nth j (layer_halos L w) []) i.
  Proof.
    intros Hi Hj Hlen Hb. rewrite halo_shape_plan by now apply upd_valid.
    rewrite recv_plan_nth by (rewrite ?layer_halos_length, ?upd_length; auto).
    now rewrite upd_nth_eq by lia.
  Qed.

  (** The plan computed by every worker is the one of [layer_halos]. *)
  Lemma exchange_info_plan idx : window_ok (length L) w -> valid_index Psh idx ->
    compute_exchange_info xs w true Psh idx shapes =
    Ok (Some (mkexchange_info (recv_plan (layer_halos L w) idx) (recv_plan (layer_halos L w) idx)
                (send_plan (layer_halos L w) idx)
                (compute_needed_ranges (block_shape L idx) (compute_halo_shape false Psh idx xs w shapes)))).
  Proof.
    intros Hw Hi. pose proof (valid_length idx Hi) as Hlen. unfold compute_exchange_info. cbn [negb].
    assert (Hxs : length xs = length L) by apply layout_shape_length.
    assert (Hps : length Psh = length L) by apply layout_workers_length.
    assert (Ew : expand_window (length xs) w = Ok w).
    { destruct Hw as (H1 & H2 & H3 & H4 & _). unfold expand_window, np_pad_left.
      rewrite H1, H2, H3, H4, Hxs, Nat.ltb_irrefl, Nat.sub_diag. cbn [repeat app rbind]. now destruct w. }
    rewrite Ew. cbn [rbind]. rewrite local_shape_eq by auto. rewrite halo_shape_plan by auto.
    do 3 f_equal. apply list_eq_nth with (d := (0, 0)).
    - rewrite vec_length. unfold send_plan. rewrite map2_length; rewrite layer_halos_length; lia.
    - intros j Hj. rewrite vec_length, Hps in Hj. rewrite vec_nth by lia.
      rewrite send_plan_nth by (rewrite layer_halos_length; lia).
      rewrite !upd_nth_eq by lia. rewrite workers_nth by auto.
      pose proof (valid_nth idx j Hi Hj) as Hb. f_equal.
      + destruct (Z.ltb_spec (-1) (nth j idx 0 - 1)), (Z.ltb_spec 0 (nth j idx 0)); try lia; auto.
        now rewrite halo_next by (auto; lia).
      + destruct (Z.ltb_spec (nth j idx 0 + 1) (Z.of_nat (length (nth j L [])))).
        * now rewrite halo_next by (auto; lia).
        * rewrite layer_halos_nth by auto. now rewrite dim_halos_out by lia.
  Qed.

  Hypothesis Hw : window_ok (length L) w.
  Hypothesis Hy : Forall (fun n => 0 <= n) (compute_out_shape xs w).

  Lemma out_nth j : (j < length L)%nat ->
    0 <= out_extent (zsum (nth j L [])) (nth j (w_kernel w) 0) (nth j (w_stride w) 0) (nth j (w_padding w) 0)
      (nth j (w_dilation w) 0).
  Proof.
    intros Hj. rewrite <- compute_out_shape_nth by auto. rewrite Forall_forall in Hy. apply Hy.
    apply nth_In. now rewrite compute_out_shape_length.
  Qed.

  Lemma ext_nth j : (j < length L)%nat -> Forall (fun x => 0 <= x) (nth j L []).
  Proof. intros Hj. unfold layout_ok in HL. rewrite Forall_forall in HL. apply HL. now apply nth_In. Qed.

  Lemma layer_halos_ok : halos_ok L (layer_halos L w).
  Proof.
    apply Forall2_nth with (da := []) (db := []). split; [now rewrite layer_halos_length|].
    intros j Hj. rewrite layer_halos_nth by auto. apply dim_halos_good.
  Qed.

  Lemma layer_halos_fit : halos_fit L (layer_halos L w).
  Proof.
    apply Forall2_nth with (da := []) (db := []). split; [now rewrite layer_halos_length|].
    intros j Hj. rewrite layer_halos_nth by auto. pose proof (window_nth _ _ j Hw Hj).
    apply dim_halos_fits; [now apply ext_nth|lia|now apply out_nth].
  Qed.
End All.
