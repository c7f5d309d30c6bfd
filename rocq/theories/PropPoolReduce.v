(** C86: the gradients of average pools in machine arithmetic. *)

From Coq Require Import Sorting.Permutation Ring_theory.
From Verif Require Import Prelude SpecIndex SpecLayout SpecPartition SpecHalo SpecSum ModelSlicing ModelDecomposition
  ModelPartition ProofSlicing ProofDecomposition ProofPartition PropPartition Ring Tensor ModelCollectives ProofCollectives PropCollectives
  Blocks ModelUtilities PropUtilities P2P Rounds Schedule ModelRepartition ProofRepartition ProofTransfer PropRepartition ModelHaloMixin ProofHaloMixin
  PropHaloMixin ModelHaloExchange ProofHaloLinks ProofHaloZones PropHaloExchange ModelFeatureLayer SpecFeature ProofFeatureLayer
  PropFeatureLayer PropFeatureConv PropFeatureCommon ModelConv ProofConv ProofConvParts ProofWork PropLinear PropConv PropConvChannel
  PropConvGeneral ModelGradients ProofGradients PropUpsampleGrad ModelFeatureGrad SpecFeatureGrad ProofFeatureGrad PropFeatureGrad SpecWindow
  PropConvGrad ModelReduce ProofReduce PropReduce SpecConvSum ModelConvReduce ProofConvReduce PropConvReduce SpecConvGradSum
  PropConvGradReduce ModelHaloReduce SpecHaloSum ProofHaloReduce ProofHaloForward PropHaloReduce ModelFeatureReduce
  ProofFeatureReduce PropFeatureReduce PropWindowReduce ModelPoolReduce.

(** An entry of the input's gradient is the sum, over the windows that see it, of the
    output's gradient divided by the size of the window. *)
Definition average_gradient_by {R : CRing} (M : machine R) (divide : R -> Z -> R) (w : window) (dY : tensor R) (b c : Z) (xs ys : list Z)
    (dX : tensor R) : Prop :=
  tshape dX = b :: c :: xs /\
  forall b' ch q, valid_index (tshape dX) (b' :: ch :: q) ->
    evaluates M (flat_map (fun o => flat_map (fun t =>
      if list_eq_dec Z.eq_dec (window_at w o t) q then [Num (divide (tat dY (b' :: ch :: o)) (zprod (w_kernel w)))] else [])
      (indices (w_kernel w))) (indices ys)) (tat dX (b' :: ch :: q)).

(** torch's gradient of the pool without padding, on every worker. *)
Definition torch_pool_back_by {R : CRing} (M : machine R) (divide : R -> Z -> R) (w : window)
    (back : Z -> tensor R -> tensor R -> result (tensor R)) : Prop :=
  forall v e dy b c xs ys, has_output (bare w) e b c xs ys -> tshape dy = b :: c :: ys ->
  exists d, back v e dy = Ok d /\ average_gradient_by M divide (bare w) dy b c xs ys d.

Definition C86_statement : Prop :=
  forall (R : CRing) (M : machine R) (divide : R -> Z -> R) (back : Z -> tensor R -> tensor R -> result (tensor R))
    (world : list Z) (P : part) (L : layout) (w : window) (X dY : tensor R) (b c : Z) (xs ys : list Z) (x dy : Z -> tensor R),
    torch_pool_back_by M divide w back ->
    feature_given world P L w -> has_output w X b c xs ys -> holds_blocks P L X x -> within L w (b :: c :: ys) ->
    tshape dY = b :: c :: ys -> holds_blocks P (balanced (b :: c :: ys) (p_shape P)) dY dy ->
    let shape v := tshape (x v) in
    let arg := halo_argument P w rzero shape x in
    let plan := halo_plan P w shape in
    let layer := history_rounds_by P (fun v => tshape (arg v)) (fun v => u_recv (plan v)) (fun v => u_send (plan v)) (m_add M) in
    forall pre init eager gf,
      same_calls P arg pre -> ends world (layer (pre ++ [HForward arg])) init eager gf ->
      let given := pool_back_argument_by back P w x (halo_result gf) dy in
      (forall v, In v world -> pool_cotangent_by back P w x (halo_result gf) dy v = Ok (given v)) /\
      halo_safe_by M world P (fun v => tshape (arg v)) (fun v => u_recv (plan v)) (fun v => u_send (plan v)) /\
      forall pre' init' eager' gb,
        same_calls P arg pre' -> ends world (layer (pre' ++ [HBackward given])) init' eager' gb ->
        exists dX, average_gradient_by M divide w dY b c xs ys dX /\
          (forall idx v, worker_at P idx v -> exists t, pool_gradient_by P w x dy (halo_result gb) v = Ok t /\ teq t (block L idx dX)) /\
          (forall v, ~ In v (p_ranks P) -> pool_gradient_by P w x dy (halo_result gb) v = Ok (dy v)).

(** ** Proofs *)

(** The entries of the outputs' gradient that enter an entry of the inputs'. *)
Definition pool_keys (w : window) (ys : list Z) (b' ch : Z) (q : list Z) : list (list Z) :=
  flat_map (fun o => flat_map (fun t => if list_eq_dec Z.eq_dec (window_at w o t) q then [b' :: ch :: o] else []) (indices (w_kernel w))) (indices ys).

Lemma pool_keys_in w ys b' ch q k : In k (pool_keys w ys b' ch q) -> exists o, k = b' :: ch :: o /\ valid_index ys o.
Proof.
  unfold pool_keys. rewrite in_flat_map. intros (o & Ho & H). apply in_flat_map in H as (t & Ht & H). apply in_indices in Ho.
  destruct (list_eq_dec Z.eq_dec _ q); [|destruct H]. destruct H as [<-|[]]. eauto.
Qed.

Definition share {R : CRing} (divide : R -> Z -> R) (n : Z) (dY : tensor R) (k : list Z) : term R := Num (divide (tat dY k) n).

Lemma average_terms_keys {R : CRing} divide w (dY : tensor R) ys b' ch q :
  flat_map (fun o => flat_map (fun t =>
      if list_eq_dec Z.eq_dec (window_at w o t) q then [Num (divide (tat dY (b' :: ch :: o)) (zprod (w_kernel w)))] else [])
      (indices (w_kernel w))) (indices ys) = map (share divide (zprod (w_kernel w)) dY) (pool_keys w ys b' ch q).
Proof.
  unfold pool_keys.
  assert (FM : forall {A B C} (f : A -> list B) (g : B -> C) l, map g (flat_map f l) = flat_map (fun a => map g (f a)) l).
  { intros A B C f g l. induction l as [|a l IH]; cbn [flat_map]; auto. now rewrite map_app, IH. }
  rewrite FM. apply flat_map_ext. intros o. rewrite FM. apply flat_map_ext. intros t.
  destruct (list_eq_dec Z.eq_dec _ q); reflexivity.
Qed.

(** With a unit for the cotangent and without division the sum counts an index. *)
Lemma share_count s yi n l :
  sumf (map (share (fun (a : Zring) _ => a) n (unit_at s yi)) l) exact_term = Z.of_nat (count_occ (list_eq_dec Z.eq_dec) l yi).
Proof.
  induction l as [|a l IH]; [reflexivity|]. cbn [map]. rewrite sumf_cons, IH. cbn [share exact_term unit_at tat count_occ].
  destruct (list_eq_dec Z.eq_dec a yi) as [E|N].
  - subst. rewrite !zlist_eqb_refl. cbn [radd rone Zring]. lia.
  - destruct (zlist_eqb yi a) eqn:E1; [|cbn [radd rzero Zring]; lia]. apply zlist_eqb_eq in E1. now destruct N.
Qed.

(** In the ring, without division. *)
Lemma keys_sum {R : CRing} (w : window) (dY : tensor R) n ys b' ch q :
  sumf (map (share (fun a _ => a) n dY) (pool_keys w ys b' ch q)) exact_term =
  sumf (indices ys) (fun o => sumf (indices (w_kernel w)) (fun t => if list_eq_dec Z.eq_dec (window_at w o t) q then tat dY (b' :: ch :: o) else rzero)).
Proof.
  unfold pool_keys. induction (indices ys) as [|o l IH]; [reflexivity|]. cbn [flat_map]. rewrite map_app, sumf_app, sumf_cons, IH. f_equal.
  clear IH. induction (indices (w_kernel w)) as [|t l' IH]; [reflexivity|]. cbn [flat_map]. rewrite map_app, sumf_app, sumf_cons, IH. f_equal.
  destruct (list_eq_dec Z.eq_dec _ q); cbn [map]; [|reflexivity]. rewrite sumf_cons. cbn [share exact_term]. rewrite sumf_nil. apply add_zero_r.
Qed.

Section Local.
  Variables (world : list Z) (P : part) (L : layout) (w : window) (c : Z).
  Hypothesis HG : feature_given world P L w.
  Variables (b : Z) (xs ys : list Z).
  Hypothesis EL : layout_shape L = b :: c :: xs.
  Hypothesis Hcnt : counts xs w ys.
  Hypothesis Hb : 0 < b.
  Hypothesis Hc0 : 0 < c.
  Hypothesis Hys : Forall (fun n => 0 < n) ys.
  Hypothesis Hin : within L w (b :: c :: ys).
  Let Ly := balanced (b :: c :: ys) (p_shape P).
  Let Lp := pad_layout L (0 :: 0 :: w_padding w).
  Let H := feature_halos L w.
  Let nk := length (w_kernel w).
  Let n := zprod (w_kernel w).
  Let rows := rows P b.
  Let extents := extents P w ys.
  Let place := place P L w.
  Let index_of := index_of P.

  (** The channels of a worker. *)
  Definition chans (idx : list Z) : Z := subshape1 (nth 1 (p_shape P) 0) (nth 1 idx 0) c.

  Lemma pl_part : part_ok P. Proof. apply HG. Qed.
  Lemma pl_window : window_ok nk w. Proof. apply HG. Qed.
  Lemma pl_ys : length ys = nk. Proof. exact (lc_ys world P L w c HG b xs ys EL Hcnt). Qed.
  Lemma pl_dims : length (p_shape P) = S (S nk). Proof. apply HG. Qed.
  Lemma pl_pos : pos_shape (p_shape P). Proof. apply pl_part. Qed.
  Lemma pl_out : layout_ok Ly /\ layout_workers Ly = p_shape P /\ layout_shape Ly = b :: c :: ys.
  Proof. exact (lc_out world P L w c c HG b xs ys EL Hcnt Hb Hc0 Hys). Qed.

  Lemma pl_block idx : valid_index (p_shape P) idx -> block_shape Ly idx = rows idx :: chans idx :: extents idx.
  Proof.
    intros Hi. unfold Ly. rewrite balanced_block_shape; [|exact pl_pos|rewrite pl_dims; cbn [length]; now rewrite pl_ys|exact Hi].
    pose proof pl_dims as Ld. pose proof pl_ys as Ls. unfold rows, extents, ProofFeatureReduce.rows, ProofFeatureReduce.extents, chans.
    destruct (p_shape P) as [|n0 [|n1 ns]]; try discriminate Ld.
    apply valid_index_cons_inv in Hi as (i0 & i' & -> & Hi0 & Hi). apply valid_index_cons_inv in Hi as (i1 & is & -> & Hi1 & Hi).
    unfold compute_subshape. cbn [map3 nth Nat.add]. f_equal. f_equal.
    apply valid_index_length in Hi. cbn [length] in Ld. assert (Ln : length ns = nk) by lia. unfold nk in *. clear - Ln Ls Hi.
    apply list_eq_nth with (d := 0); [rewrite vec_length, map3_length; lia|]. intros k Hk. rewrite map3_length in Hk by lia.
    rewrite vec_nth by lia. now rewrite map3_nth with (da := 0) (db := 0) (dc := 0) by lia.
  Qed.

  (** What its torch layer gets. *)
  Lemma pl_slice idx : valid_index (p_shape P) idx -> exists es,
    compute_nd_slice_shape (slice_of L w idx) = rows idx :: chans idx :: es /\ length es = nk /\
    counts es (bare w) (extents idx) /\ 0 < rows idx /\ 0 < chans idx /\ Forall (fun n => 0 < n) (extents idx).
  Proof.
    intros Hi. assert (Eg : tshape (@tzeros Zring (b :: c :: xs)) = b :: c :: xs) by reflexivity.
    set (G0 := @tzeros Zring (b :: c :: xs)) in *. set (x0 := fun v => match index_in P v with Some i => block L i G0 | None => G0 end).
    assert (HB0 : holds_blocks P L G0 x0).
    { split; [now rewrite EL|]. intros i v Hv. unfold x0. rewrite (proj2 (index_in_spec P v i pl_part) Hv). apply teq_refl. }
    set (f0 := fun (_ _ : Z) (_ : Z -> list Z -> Zring) => (rzero : Zring)).
    set (Y0 := @tzeros Zring (b :: c :: ys)).
    assert (HY0 : forall b' c' o, valid_index (tshape Y0) (b' :: c' :: o) -> tat Y0 (b' :: c' :: o) =
      f0 c c' (fun ch t => value_at G0 rzero (b' :: ch :: vec (length xs) (fun j => nth j (w_stride w) 0 * nth j o 0 - nth j (w_padding w) 0 + nth j (w_dilation w) 0 * nth j t 0)))) by reflexivity.
    pose proof (ext_facts world P L w f0 rzero G0 Y0 x0 HG b c xs ys Eg Hcnt Hb Hc0 Hys HY0 HB0 Hin idx Hi) as EF.
    destruct (ext_cons world P L w f0 rzero G0 Y0 x0 HG b c xs ys Eg Hcnt Hb Hc0 Hys HY0 HB0 Hin idx Hi) as (es & Ee & Le & Ne).
    assert (Gl : length L = S (S (nf w))) by (destruct HG as (_ & _ & _ & _ & A & B & _); rewrite <- layout_workers_length, A, B; reflexivity).
    assert (Gc : counts (layout_shape L) (full_window (length L) w) (b :: c :: ys))
      by exact (g_counts world P L w f0 rzero G0 Y0 x0 HG b c xs ys Eg Hcnt Hb Hc0 HY0 HB0).
    assert (S1 : compute_nd_slice_shape (slice_of L w idx) = local_extents L w (b :: c :: ys) idx).
    { pose proof (sliced_shape P L w (b :: c :: ys) (fun v => tshape (x0 v)) pl_part ltac:(apply HG) ltac:(apply HG) Gl ltac:(apply HG) Gc
        ltac:(repeat (constructor; auto)) Hin (fun v i Hv => proj1 (proj2 HB0 i v Hv)) idx Hi (@tzeros Zring (padded_shape Lp H idx)) eq_refl) as S.
      exact S. }
    cbv beta in Ee. change (nth 0 (b :: c :: ys) 0) with b in Ee. change (nth 1 (b :: c :: ys) 0) with c in Ee.
    assert (EK : forall k, (k < nk)%nat -> out_extent (nth k es 0) (nth k (w_kernel w) 0) (nth k (w_stride w) 0) 0 (nth k (w_dilation w) 0) = nth k (extents idx) 0 /\
       0 < nth k (extents idx) 0).
    { intros k Hk. pose proof (EF (2 + k)%nat ltac:(rewrite Gl; unfold nf, nk in *; lia)) as F. rewrite (g_fw world P L w G0 x0 HG HB0) in F.
      cbn [w_kernel w_stride w_dilation Nat.add nth] in F. rewrite <- Ne in F by exact Hk. destruct F as (F1 & F2 & F3 & _).
      unfold extents, ProofFeatureReduce.extents. rewrite vec_nth by exact Hk. split; [exact F1|exact F3]. }
    exists es. split; [rewrite S1; exact Ee|]. split; [exact Le|]. split; [|split; [|split]].
    - unfold extents, ProofFeatureReduce.extents. split; [rewrite vec_length; symmetry; exact Le|]. intros k Hk. rewrite Le in Hk. cbn [bare w_kernel w_stride w_padding w_dilation].
      rewrite nth_zeros. destruct (EK k Hk) as (O1 & O2). destruct (window_nth _ _ k pl_window Hk) as (B1 & B2 & _). fold (ProofFeatureReduce.extents P w ys idx). fold (extents idx).
      split; [lia|]. intros o Ho. rewrite <- O1. now apply out_extent_count.
    - pose proof (EF 0%nat ltac:(rewrite Gl; lia)) as (_ & _ & F & _). exact F.
    - pose proof (EF 1%nat ltac:(rewrite Gl; lia)) as (_ & _ & F & _). exact F.
    - apply Forall_forall. intros z Hz. apply In_nth with (d := 0) in Hz as (k & Hk & <-). unfold extents, ProofFeatureReduce.extents in Hk. rewrite vec_length in Hk. apply EK, Hk.
  Qed.

  (** The terms of entry [q] of the cotangent that worker [idx] hands to its halo layer. *)
  Definition pool_local_keys (idx q : list Z) : list (list Z) :=
    if in_slice (slice_of L w idx) q then
      match map2 (fun s k => k - fst s) (slice_of L w idx) q with
      | b' :: ch :: q' => map (vadd (block_lo Ly idx)) (pool_keys (bare w) (extents idx) b' ch q')
      | _ => []
      end
    else [].

  Lemma pl_cotangent {R : CRing} (M : machine R) divide (dY : tensor R) idx (g d : tensor R) q : valid_index (p_shape P) idx ->
    teq g (block Ly idx dY) -> tshape d = compute_nd_slice_shape (slice_of L w idx) ->
    (forall b' ch q', valid_index (tshape d) (b' :: ch :: q') ->
       evaluates M (map (share divide n g) (pool_keys (bare w) (extents idx) b' ch q')) (tat d (b' :: ch :: q'))) ->
    evaluates M (map (share divide n dY) (pool_local_keys idx q)) (tat (slice_backward (padded_shape Lp H idx) (slice_of L w idx) d) q).
  Proof.
    intros Hi Hg Ed Vd. unfold slice_backward, write_slice. rewrite Ed, zlist_eqb_refl. cbn [tat tzeros]. unfold pool_local_keys.
    destruct (in_slice (slice_of L w idx) q) eqn:Eq; [|constructor]. apply in_slice_window in Eq as (p & Hp & ->).
    assert (Ep : map2 (fun (s : Z * Z) k => k - fst s) (slice_of L w idx) (vadd (map fst (slice_of L w idx)) p) = p).
    { pose proof (valid_index_length _ _ Hp) as Lq. rewrite slice_shape_len in Lq. clear - Lq. revert p Lq.
      induction (slice_of L w idx) as [|s sl IH]; intros [|k p] Lq; try discriminate; auto. unfold vadd in *. cbn [map map2]. f_equal; [lia|]. apply IH. now injection Lq. }
    rewrite Ep. destruct (pl_slice idx Hi) as (es & Es & _ & _). pose proof Hp as Hp'. rewrite Es in Hp'.
    apply valid_index_cons_inv in Hp' as (b' & p' & -> & Hb' & Hp'). apply valid_index_cons_inv in Hp' as (ch & q' & -> & Hch & Hq').
    specialize (Vd b' ch q'). rewrite Ed in Vd. specialize (Vd Hp).
    replace (map (share divide n dY) (map (vadd (block_lo Ly idx)) (pool_keys (bare w) (extents idx) b' ch q')))
      with (map (share divide n g) (pool_keys (bare w) (extents idx) b' ch q')); [exact Vd|].
    rewrite map_map. apply map_ext_in. intros k Hk. apply pool_keys_in in Hk as (o & -> & Ho). unfold share.
    destruct Hg as [Sg Vg]. rewrite Vg; [reflexivity|]. rewrite Sg. cbn [block tshape]. rewrite pl_block by exact Hi.
    apply valid_index_cons. split; [exact Hb'|]. apply valid_index_cons. split; [exact Hch|exact Ho].
  Qed.

  (** torch's gradient in the ring, without division. *)
  Lemma pl_sliding {R : CRing} (g : tensor R) idx b' ch q' : valid_index (p_shape P) idx -> tshape g = block_shape Ly idx -> 0 <= ch < chans idx ->
    evaluates (exact_machine R) (map (share (fun a _ => a) n g) (pool_keys (bare w) (extents idx) b' ch q'))
      (tat (sliding_backward (mean_coefficients rone) w (compute_nd_slice_shape (slice_of L w idx)) g) (b' :: ch :: q')).
  Proof.
    intros Hi Eg Hch. rewrite pl_block in Eg by exact Hi.
    match goal with |- evaluates _ ?l ?r => enough (E : r = sumf l exact_term) by (rewrite E; apply exact_evaluates) end.
    rewrite keys_sum. cbn [sliding_backward tat]. rewrite Eg. cbn [nth skipn bare w_kernel].
    rewrite (sumf_single (zrange (chans idx)) _ ch); [|apply zrange_nodup|now apply in_zrange|].
    - apply sumf_ext. intros o Ho. apply sumf_ext. intros t Ht. apply in_indices in Ho, Ht. apply valid_index_length in Ho, Ht.
      unfold extents, ProofFeatureReduce.extents in Ho. rewrite vec_length in Ho. rewrite (bare_window w o t pl_window Ho Ht).
      unfold mean_coefficients. rewrite Z.eqb_refl.
      destruct (zlist_eqb (window_point w o t) q') eqn:E1; destruct (list_eq_dec Z.eq_dec (window_point w o t) q') as [E2|E2]; auto.
      + apply (Rmul_1_l (rth R)).
      + apply zlist_eqb_eq in E1. congruence.
      + subst. now rewrite zlist_eqb_refl in E1.
    - intros j _ Hn. apply sumf_zero. intros o _. apply sumf_zero. intros t _. unfold mean_coefficients.
      destruct (zlist_eqb _ _); [|reflexivity]. destruct (Z.eqb_spec j ch); [congruence|]. apply mul_zero_l.
  Qed.
  Lemma pl_gradient {R : CRing} (dY : tensor R) b' ch q : tshape dY = b :: c :: ys -> 0 <= ch < c ->
    tat (input_gradient (mean_coefficients rone) w (b :: c :: xs) dY) (b' :: ch :: q) =
    sumf (map (share (fun a _ => a) n dY) (pool_keys w ys b' ch q)) exact_term.
  Proof.
    intros ED Hch. rewrite keys_sum. cbn [input_gradient tat]. rewrite ED. cbn [nth skipn].
    rewrite (sumf_single (zrange c) _ ch); [|apply zrange_nodup|now apply in_zrange|].
    - apply sumf_ext. intros o _. apply sumf_ext. intros t _.
      assert (Ew : seen_point (length xs) w o t = window_at w o t).
      { unfold seen_point, window_at. destruct Hcnt as [Q _]. now rewrite <- Q, pl_ys. }
      rewrite Ew. unfold mean_coefficients. rewrite Z.eqb_refl. destruct (list_eq_dec Z.eq_dec _ q); auto. apply (Rmul_1_l (rth R)).
    - intros j _ Hn. apply sumf_zero. intros o _. apply sumf_zero. intros t _. unfold mean_coefficients.
      destruct (list_eq_dec Z.eq_dec _ q); [|reflexivity]. destruct (Z.eqb_spec j ch); [congruence|]. apply mul_zero_l.
  Qed.

  (** * After the exchange *)
  Definition pool_all_keys (idx q : list Z) : list (list Z) :=
    flat_map (fun e => pool_local_keys (index_of (fst e)) (snd e)) (collected P L w idx q).

  Section After.
    Context {R : CRing}.
    Variables (M : machine R) (divide : R -> Z -> R) (dY : tensor R).
    Variables (shape : Z -> list Z) (recv send : Z -> list (Z * Z)).
    Variables (pre : list (@call R)) (back : Z -> tensor R) (init : Z -> @hst R) (eager : Z -> Z -> Z -> nat -> bool) (gb : @gst (@hst R) (tensor R)).
    Hypothesis HH : halo_given world P Lp H.
    Hypothesis HN : halos_narrow Lp H.
    Hypothesis HPl : planned P Lp H shape recv send.
    Hypothesis Hpre : Forall (call_ok P Lp H) pre.
    Hypothesis He : ends world (history_rounds_by P shape recv send (m_add M) (pre ++ [HBackward back])) init eager gb.
    Hypothesis Hback : forall idx v, worker_at P idx v -> tshape (back v) = padded_shape Lp H idx /\
      forall q, evaluates M (map (share divide n dY) (pool_local_keys idx q)) (tat (back v) q).

    Lemma pl_result idx v : worker_at P idx v -> tshape (halo_result gb v) = padded_shape Lp H idx /\
      forall q, valid_index (padded_shape Lp H idx) q -> evaluates M (map (share divide n dY) (pool_all_keys idx q)) (tat (halo_result gb v) q).
    Proof.
      intros Hv. assert (Hc : Forall (call_ok P Lp H) (pre ++ [HBackward back])).
      { apply Forall_app. split; [exact Hpre|]. constructor; [|constructor]. intros i u Hu. apply (Hback i u Hu). }
      destruct (C76_proof R M world P Lp H shape recv send pre back init eager gb HH HN HPl Hc He) as [K _].
      destruct (K idx v Hv) as (K1 & K2 & K3). split; [exact K1|]. intros q Hq. clear K.
      assert (E : evaluates M (cotangents back (collected P L w idx q)) (tat (halo_result gb v) q)).
      { unfold collected. destruct (lc_left world P L w HG idx (proj1 Hv)) as [Ll Lq]. fold Lp H in Ll, Lq. pose proof (valid_index_length _ _ Hq) as Lv. rewrite Lq in Lv.
        assert (Eq : q = vadd (left_halo H idx) (vsub q (left_halo H idx))) by (symmetry; apply vadd_vsub'; lia).
        assert (Lb : length (block_shape Lp idx) = length L).
        { assert (Gl : length L = S (S (nf w))) by (destruct HG as (_ & _ & _ & _ & A & B & _); rewrite <- layout_workers_length, A, B; reflexivity).
          assert (LL : length Lp = length L) by (apply Lp_length; [exact Gl|apply HG]). rewrite block_shape_length; [exact LL|].
          destruct Hv as [Hv _]. apply valid_index_length in Hv. rewrite Hv, LL, <- layout_workers_length. destruct HG as (_ & _ & _ & _ & A & _). now rewrite A. }
        fold Lp H. destruct (inside (block_shape Lp idx) (vsub q (left_halo H idx))) eqn:Ei.
        - apply (K2 (vsub q (left_halo H idx))); [|apply C76_copies, pl_part]. split; [now apply inside_spec|exact Eq].
        - apply K3; [exact Hq|]. intros p [Hp Ep].
          assert (p = vsub q (left_halo H idx)) by (rewrite Ep; symmetry; apply vadd_vsub; apply valid_index_length in Hp; lia).
          subst p. apply inside_spec in Hp. congruence. }
      unfold pool_all_keys. clear K1 K2 K3.
      assert (HC : forall e, In e (collected P L w idx q) -> evaluates M (map (share divide n dY) (pool_local_keys (index_of (fst e)) (snd e))) (tat (back (fst e)) (snd e))).
      { intros [u q0] Hin'. unfold collected in Hin'. destruct (inside _ _); [|destruct Hin'].
        apply (proj2 (C76_copies P _ _ _ pl_part)) in Hin' as (i & Hu & _). cbn [fst snd].
        unfold index_of. rewrite (index_of_spec world P L w HG i u Hu). now apply Hback. }
      pose proof (evaluates_concat M (map (fun e => (map (share divide n dY) (pool_local_keys (index_of (fst e)) (snd e)), tat (back (fst e)) (snd e))) (collected P L w idx q)) (tat (halo_result gb v) q)) as EC.
      rewrite !map_map in EC. cbn [fst snd] in EC.
      replace (map (share divide n dY) (flat_map (fun e => pool_local_keys (index_of (fst e)) (snd e)) (collected P L w idx q)))
        with (concat (map (fun e => map (share divide n dY) (pool_local_keys (index_of (fst e)) (snd e))) (collected P L w idx q))).
      - apply EC; [|exact E]. intros p Hp. apply in_map_iff in Hp as (e & <- & Hi). cbn [fst snd]. exact (HC e Hi).
      - clear. induction (collected P L w idx q) as [|e l IH]; cbn [map concat flat_map]; auto. now rewrite map_app, IH.
    Qed.
  End After.

  Let block_of := block_of P L.

  Lemma pl_keys idx p b' ch q : valid_index (p_shape P) idx -> valid_index (block_shape L idx) p -> vadd (block_lo L idx) p = b' :: ch :: q ->
    0 <= ch < c -> Permutation (pool_all_keys idx (place idx p)) (pool_keys w ys b' ch q).
  Proof.
    intros Hi Hp Ep Hch. apply (proj2 (Permutation_count_occ (list_eq_dec Z.eq_dec) _ _)). intros yi.
    set (dY := @unit_at Zring (b :: c :: ys) yi).
    set (K := @mean_coefficients Zring rone). set (f := @pool_kernel Zring (fun g => rmul rone (sumf (indices (w_kernel w)) g))).
    assert (HK : linear_kernel w f (fun c => c) K) by apply (C51_average_kernels Zring w rone).
    assert (HC : per_channel f (fun c => c)).
    { apply (C30_pooling_kernels Zring w). intros g g' E. f_equal. apply sumf_ext. intros t Ht. apply E. now apply in_indices. }
    set (x := fun v => @tzeros Zring (block_of v)). set (dy := fun v => block Ly (index_of v) dY).
    set (back := fun v => match index_in P v with Some i => local_back L w i K (dy v) | None => dy v end).
    assert (Hbs : forall i u, worker_at P i u -> block_of u = block_shape L i) by exact (block_of_spec world P L w HG).
    assert (Hx : forall i u, worker_at P i u -> tshape (x u) = block_shape L i) by (intros i u Hu; cbn [x tzeros tshape]; now apply Hbs).
    assert (Hdy : holds_blocks P Ly dY dy).
    { split; [destruct pl_out as (_ & _ & ->); reflexivity|]. intros i u Hu. unfold dy, index_of. rewrite (index_of_spec world P L w HG i u Hu). apply teq_refl. }
    assert (Hbk : forall i u, worker_at P i u -> back u = local_back L w i K (dy u)).
    { intros i u Hu. unfold back. now rewrite (proj2 (index_in_spec P u i pl_part) Hu). }
    assert (Hbi : forall u, ~ In u (p_ranks P) -> back u = dy u).
    { intros u Hu. unfold back. destruct (index_in P u) as [i|] eqn:Ei; [|reflexivity]. apply (index_in_spec P u i pl_part) in Ei.
      apply worker_at_In in Ei. contradiction. }
    assert (HH : halo_given world P Lp H) by exact (fg_given world P L w HG block_of Hbs).
    pose proof (ow_planned world P L w HG [] x Hx) as HPl. cbv zeta in HPl.
    destruct (async_ends _ _ _ _ (fun _ _ _ _ => true) (halo_async world P Lp H _ _ _ HH HPl ([] ++ [HBackward back])
      (fun _ => mkhst (tzeros []) (tzeros []) (tzeros []) []))) as [gb Hgb].
    set (v := wk P idx). assert (Hv : worker_at P idx v) by (apply wk_worker; [exact pl_part|exact Hi]).
    destruct (gradient_blocks_any world P L w HG f (fun _ => f) (fun c => c) K (fun _ => K) HK (fun _ _ => HK) b c xs ys
      (fun _ _ _ _ _ => eq_refl) (fun _ _ => or_intror HC) EL Hcnt Hb Hc0 (Z.lt_le_incl _ _ Hc0) Hys Hin x dy back dY Hx eq_refl Hdy
      _ _ _ HPl Hbk Hbi [] _ _ gb (Forall_nil _) Hgb idx v Hv) as (t & Et & St & Vt).
    assert (Q : forall i u, worker_at P i u -> tshape (back u) = padded_shape Lp H i /\
        forall q0, evaluates (exact_machine Zring) (map (share (fun a _ => a) n dY) (pool_local_keys i q0)) (tat (back u) q0)).
    { intros i u Hu. rewrite (Hbk i u Hu). split; [exact (fg_back_shape world P L w HG block_of Hbs i (proj1 Hu) K (dy u))|].
      intros q0. assert (Tg : teq (dy u) (block Ly i dY)) by (apply Hdy; exact Hu).
      apply (pl_cotangent (exact_machine Zring) (fun a _ => a) dY i (dy u) (sliding_backward K w (compute_nd_slice_shape (slice_of L w i)) (dy u)) q0 (proj1 Hu) Tg eq_refl).
      intros b0 c0 q1 Hq1. cbn [sliding_backward tshape] in Hq1. destruct (pl_slice i (proj1 Hu)) as (es & Es & _). rewrite Es in Hq1.
      apply valid_index_cons in Hq1 as [_ Hq1]. apply valid_index_cons in Hq1 as [Hc1 _].
      apply (pl_sliding (dy u) i b0 c0 q1 (proj1 Hu)); [|exact Hc1]. destruct Tg as [-> _]. reflexivity. }
    destruct (pl_result (exact_machine Zring) (fun a _ => a) dY _ _ _ [] back _ _ gb HH (lc_narrow world P L w c HG b xs ys EL Hcnt Hb Hc0 Hys Hin) HPl (Forall_nil _) Hgb Q idx v Hv) as [S1 V1].
    destruct (lc_cropped world P L w HG b idx v x dy (halo_result gb) Hv Hx S1) as (t' & Et' & St' & Vt').
    assert (t' = t) by congruence. subst t'. destruct (Vt' p Hp) as [Hq Eq'].
    specialize (V1 _ Hq). apply evaluates_exact in V1. rewrite <- Eq', Vt in V1 by (rewrite St'; exact Hp). cbn [block tat] in V1. rewrite Ep in V1.
    subst K. rewrite (pl_gradient dY b' ch q eq_refl Hch) in V1.
    unfold dY in V1. rewrite !share_count in V1. now apply Nat2Z.inj in V1.
  Qed.

  (** The gradient of the input from what the halo layers' backward returns. *)
  Lemma pl_input {R : CRing} (M : machine R) divide (dY : tensor R) (x dy : Z -> tensor R) shape recv send pre (back : Z -> tensor R) init eager gb :
    (forall i u, worker_at P i u -> tshape (x u) = block_shape L i) ->
    planned P Lp H shape recv send -> Forall (call_ok P Lp H) pre ->
    ends world (history_rounds_by P shape recv send (m_add M) (pre ++ [HBackward back])) init eager gb ->
    (forall idx v, worker_at P idx v -> tshape (back v) = padded_shape Lp H idx /\
       forall q, evaluates M (map (share divide n dY) (pool_local_keys idx q)) (tat (back v) q)) ->
    exists dX, average_gradient_by M divide w dY b c xs ys dX /\
      forall idx v, worker_at P idx v ->
        exists t, feature_gradient P w (fun u => tshape (x u)) dy (halo_result gb) v = Ok t /\ teq t (block L idx dX).
  Proof.
    intros Hx HPl Hpre He Hbk. assert (HH : halo_given world P Lp H) by exact (fg_given world P L w HG block_of (block_of_spec world P L w HG)).
    pose proof (pl_result M divide dY shape recv send pre back init eager gb HH (lc_narrow world P L w c HG b xs ys EL Hcnt Hb Hc0 Hys Hin) HPl Hpre He Hbk) as HR.
    set (T := fun idx => match feature_gradient P w (fun u => tshape (x u)) dy (halo_result gb) (wk P idx) with Ok t => t | Raise _ => tzeros [] end).
    assert (Gk : layout_workers L = p_shape P) by apply HG. assert (Go : layout_ok L) by apply HG.
    assert (HT : forall idx v, worker_at P idx v -> feature_gradient P w (fun u => tshape (x u)) dy (halo_result gb) v = Ok (T idx) /\
       tshape (T idx) = block_shape L idx /\ forall p, valid_index (block_shape L idx) p ->
         match vadd (block_lo L idx) p with
         | b' :: ch :: q => 0 <= ch < c -> evaluates M (map (share divide n dY) (pool_keys w ys b' ch q)) (tat (T idx) p) | _ => True end).
    { intros idx v Hv. destruct (HR idx v Hv) as [S1 V1]. destruct (lc_cropped world P L w HG b idx v x dy (halo_result gb) Hv Hx S1) as (t & Et & St & Vt).
      assert (ET : T idx = t) by (unfold T; now rewrite (worker_wk _ _ _ Hv), Et). rewrite ET. split; [exact Et|]. split; [exact St|].
      intros p Hp. destruct (vadd (block_lo L idx) p) as [|b' [|ch q]] eqn:Ep; auto. intros Hch. destruct (Vt p Hp) as [Hq ->].
      apply ev_order with (l := map (share divide n dY) (pool_all_keys idx (place idx p))); [|now apply V1].
      apply Permutation_map. now apply (pl_keys idx p b' ch q (proj1 Hv) Hp). }
    destruct (assemble L T (fun g r => match g with b' :: ch :: q => 0 <= ch < c -> evaluates M (map (share divide n dY) (pool_keys w ys b' ch q)) r | _ => True end) Go)
      as (dX & A1 & A2 & A3).
    { intros idx Hi. rewrite Gk in Hi. apply (HT idx (wk P idx)). apply wk_worker; [exact pl_part|exact Hi]. }
    exists dX. split; [split; [congruence|]|].
    - intros b' ch q Hq. rewrite average_terms_keys. rewrite A1 in Hq. apply (A3 _ Hq). rewrite EL in Hq.
      apply valid_index_cons in Hq as [_ Hq]. now apply valid_index_cons in Hq as [Hq _].
    - intros idx v Hv. destruct (HT idx v Hv) as (E & _). exists (T idx). split; [exact E|]. apply A2. rewrite Gk. apply Hv.
  Qed.
End Local.

Lemma C86_proof : C86_statement.
Proof.
  intros R M divide back world P L w X dY b c xs ys x dy HT HG HO HB Hin ED HD shape arg plan layer pre init eager gf Hp Hf given.
  pose proof HO as (EX & Hcnt & Hb & Hc0 & Hys & Lx).
  assert (HS : forall i u, worker_at P i u -> tshape (x u) = block_shape L i) by (intros i u Hu; destruct HB as [_ B]; apply (B i u Hu)).
  assert (EL : layout_shape L = b :: c :: xs) by (destruct HB as [E _]; congruence).
  pose proof (ow_planned world P L w HG (b :: c :: ys) x HS) as HPl. pose proof (fg_given world P L w HG shape HS) as HH.
  assert (SE : forall idx v, worker_at P idx v -> tshape (halo_result gf v) = padded_shape (pad_layout L (0 :: 0 :: w_padding w)) (feature_halos L w) idx).
  { intros idx v Hv. destruct (forward_after (m_add M) world P _ _ _ _ _ HH HPl pre arg init eager gf Hf) as (g & Hg & E).
    rewrite (proj1 (E v ltac:(destruct HH as (_ & HH & _); apply HH, (worker_at_In _ _ _ Hv)))).
    exact (exchanged_shape world P L w rzero X x HG b c xs ys EX Hcnt Hb Hc0 Hys HB Hin _ _ _ pre init eager g idx v HPl
      (ow_calls world P L w HG (b :: c :: ys) x HS pre Hp) Hg Hv). }
  assert (SC : forall idx v, worker_at P idx v -> exists d, pool_cotangent_by back P w x (halo_result gf) dy v =
       Ok (slice_backward (padded_shape (pad_layout L (0 :: 0 :: w_padding w)) (feature_halos L w) idx) (slice_of L w idx) d) /\
       tshape d = compute_nd_slice_shape (slice_of L w idx) /\
       forall b' ch q', valid_index (tshape d) (b' :: ch :: q') ->
         evaluates M (map (share divide (zprod (w_kernel w)) (dy v)) (pool_keys (bare w) (extents P w ys idx) b' ch q')) (tat d (b' :: ch :: q'))).
  { intros idx v Hv. destruct (pl_slice world P L w c HG b xs ys EL Hcnt Hb Hc0 Hys Hin idx (proj1 Hv)) as (es & Es & Le & Ce & Hr & Hch & Hex).
    assert (Ss : tshape (slice_tensor (halo_result gf v) (needed_of L w idx)) = compute_nd_slice_shape (slice_of L w idx)).
    { unfold slice_tensor. rewrite (SE idx v Hv). reflexivity. }
    assert (Sd : tshape (dy v) = rows P b idx :: chans P c idx :: extents P w ys idx).
    { destruct HD as [_ HD']. destruct (HD' idx v Hv) as [-> _]. cbn [block tshape]. exact (pl_block world P L w c HG b xs ys EL Hcnt idx (proj1 Hv)). }
    destruct (HT v (slice_tensor (halo_result gf v) (needed_of L w idx)) (dy v) (rows P b idx) (chans P c idx) es (extents P w ys idx)) as (d & Ed & Sd' & Vd).
    { split; [now rewrite Ss|]. split; [exact Ce|]. split; [exact Hr|]. split; [exact Hch|]. split; [exact Hex|exact Le]. }
    { exact Sd. }
    exists d. split; [|split; [congruence|]].
    - unfold pool_cotangent_by. pose proof (fg_setup world P L w HG shape HS idx v Hv) as Ef. unfold shape in Ef. rewrite Ef. cbn [rbind u_needed].
      rewrite Ed. cbn [rbind]. rewrite (SE idx v Hv). reflexivity.
    - intros b' ch q' Hq. specialize (Vd b' ch q' Hq). rewrite (average_terms_keys divide (bare w)) in Vd. exact Vd. }
  assert (SI : forall v, ~ In v (p_ranks P) -> pool_cotangent_by back P w x (halo_result gf) dy v = Ok (dy v)).
  { intros v Hv. unfold pool_cotangent_by. pose proof (fg_inactive P w (fun v => tshape (x v)) v Hv) as E. rewrite E. reflexivity. }
  split; [|split].
  - intros v _. unfold given, pool_back_argument_by. destruct (in_dec Z.eq_dec v (p_ranks P)) as [Hr|Hr].
    + destruct (worker_at_exists P v) as [idx Hi]; [apply HG|auto|]. destruct (SC idx v Hi) as (d & -> & _). reflexivity.
    + now rewrite SI.
  - intros calls init' eager'. exact (C76_safe R M world P _ _ _ _ _ calls init' eager' HH HPl).
  - intros pre' init' eager' gb Hp' Hb'.
    destruct (pl_input world P L w c HG b xs ys EL Hcnt Hb Hc0 Hys Hin M divide dY x dy _ _ _ pre' given init' eager' gb HS HPl
      (ow_calls world P L w HG (b :: c :: ys) x HS pre' Hp') Hb') as (dX & K1 & K2).
    { intros idx v Hv. destruct (SC idx v Hv) as (d & Ed & Sd & Vd). unfold given, pool_back_argument_by. rewrite Ed. split.
      - unfold slice_backward, write_slice. destruct (zlist_eqb _ _); reflexivity.
      - intros q. destruct HD as [_ HD']. exact (pl_cotangent world P L w c HG b xs ys EL Hcnt Hb Hc0 Hys Hin M divide dY idx (dy v) d q (proj1 Hv) (HD' idx v Hv) Sd Vd). }
    exists dX. split; [exact K1|]. split; [exact K2|].
    intros v Hv. unfold pool_gradient_by, feature_gradient. pose proof (fg_inactive P w (fun v => tshape (x v)) v Hv) as E. rewrite E. reflexivity.
Qed.

Theorem C86_pool_gradients : C86_statement.
Proof. exact C86_proof. Qed.

(** * Example *)

(** Workers that add in different orders. *)
Definition alternate_pool_back {R : CRing} (M : machine R) (divide : R -> Z -> R) (w : window) (v : Z) (e dy : tensor R) : result (tensor R) :=
  Ok (mkt (tshape e) (fun i => match i with
    | b' :: ch :: q => alternate_terms M v (map (share divide (zprod (w_kernel w)) dy) (pool_keys (bare w) (skipn 2 (tshape dy)) b' ch q))
    | _ => rzero
    end)).
Lemma alternate_pool_back_ok {R : CRing} (M : machine R) divide w : torch_pool_back_by M divide w (alternate_pool_back M divide w).
Proof.
  intros v e dy b c xs ys (E & _) Ed. eexists. split; [reflexivity|]. split; [exact E|]. intros b' ch q _. cbn [tat].
  rewrite Ed. cbn [skipn]. rewrite (average_terms_keys divide (bare w)). apply alternate_terms_ok.
Qed.

(** The pool of [C84_pools_example]; after the pass forwards another one and the backward
    pass. *)
Definition pr_torch := alternate_pool_back ex61_M Z.div cv_w.
Definition pr_back : Z -> tensor Zring := pool_back_argument_by pr_torch cv_P cv_w wr_x (halo_result wr_g) fr_dy.
Definition pr_gb : @gst (@hst Zring) (tensor Zring) :=
  played cv_world (wr_layer ([HForward wr_arg] ++ [HBackward pr_back])) cv_zero (fun _ _ _ _ => true) (fun _ => [2; 3; 0; 1]%nat) 500.
Definition pr_dx := pool_gradient_by cv_P cv_w wr_x fr_dy (halo_result pr_gb).

Example C86_example :
  torch_pool_back_by ex61_M Z.div cv_w pr_torch /\ feature_given cv_world cv_P cv_L cv_w /\
  has_output cv_w wr_G 1 2 [10] [10] /\ holds_blocks cv_P cv_L wr_G wr_x /\ within cv_L cv_w [1; 2; 10] /\
  tshape fr_dY = [1; 2; 10] /\ holds_blocks cv_P (balanced [1; 2; 10] (p_shape cv_P)) fr_dY fr_dy /\
  same_calls cv_P wr_arg [HBackward wr_arg] /\
  ends cv_world (wr_layer ([HBackward wr_arg] ++ [HForward wr_arg])) cv_zero (fun _ _ _ _ => false) wr_g /\
  same_calls cv_P wr_arg [HForward wr_arg] /\
  ends cv_world (wr_layer ([HForward wr_arg] ++ [HBackward pr_back])) cv_zero (fun _ _ _ _ => true) pr_gb /\
  map (fun v => map (tat (val (pr_dx v))) (indices [1; 2; 3])) [11; 12] = [[-1; 100; 201; 288; 384; 480]; [288; 400; 288; 592; 688; 496]] /\
  pr_dx 9 = Ok (fr_dy 9).
Proof.
  destruct fr_given as (_ & _ & A3 & _ & _ & _ & _ & A8 & A9 & A10). pose proof C84_pools_example as (_ & _ & B3 & B4 & _ & B6 & B7 & _).
  split; [apply alternate_pool_back_ok|]. do 8 (split; [assumption|]). split; [repeat constructor|].
  split; [apply played_ends; vm_compute; reflexivity|]. split; [vm_compute; reflexivity|reflexivity].
Qed.

Print Assumptions C86_pool_gradients.
