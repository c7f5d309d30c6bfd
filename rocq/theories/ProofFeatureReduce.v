(** Proofs about the gradients of convolutions over distributed features in machine
    arithmetic. *)

From Coq Require Import Sorting.Permutation.
From Verif Require Import Prelude SpecIndex SpecLayout SpecPartition SpecHalo SpecSum ModelSlicing ModelDecomposition
  ModelPartition ProofSlicing ProofDecomposition ProofPartition PropPartition Ring Tensor ModelCollectives ProofCollectives PropCollectives
  Blocks ModelUtilities PropUtilities P2P Rounds ModelRepartition ProofRepartition ProofTransfer PropRepartition ModelHaloMixin ProofHaloMixin
  PropHaloMixin ModelHaloExchange ProofHaloLinks ProofHaloZones PropHaloExchange ModelFeatureLayer SpecFeature ProofFeatureLayer
  PropFeatureLayer PropFeatureConv PropFeatureCommon ModelConv ProofConv ProofConvParts ProofWork PropLinear PropConv PropConvChannel
  PropConvGeneral ModelGradients ProofGradients PropUpsampleGrad ModelFeatureGrad SpecFeatureGrad ProofFeatureGrad PropFeatureGrad
  PropConvGrad ModelReduce ProofReduce PropReduce SpecConvSum ModelConvReduce ProofConvReduce PropConvReduce SpecConvGradSum
  ModelConvGradReduce PropConvGradReduce ModelHaloReduce SpecHaloSum ProofHaloReduce PropHaloReduce ModelFeatureReduce.

(** * The terms of the input's gradient, by their indices in weight and cotangent *)

Definition key_dec : forall a b : list Z * list Z, {a = b} + {a <> b}.
Proof. decide equality; apply (list_eq_dec Z.eq_dec). Defined.

Section Keys.
  Variables (w : window) (groups cin cout : Z).

  Definition conv_keys (ys : list Z) (b' ch : Z) (q : list Z) : list (list Z * list Z) :=
    flat_map (fun c =>
      let first := c / (cout / groups) * (cin / groups) in
      if (first <=? ch) && (ch <? first + cin / groups)
      then flat_map (fun o => flat_map (fun t =>
             if list_eq_dec Z.eq_dec (window_at w o t) q then [(c :: ch - first :: t, b' :: c :: o)] else [])
             (indices (w_kernel w))) (indices ys)
      else []) (zrange cout).

  Lemma conv_keys_in ys b' ch q k : In k (conv_keys ys b' ch q) ->
    valid_index (cout :: cin / groups :: w_kernel w) (fst k) /\ exists c o, snd k = b' :: c :: o /\ 0 <= c < cout /\ valid_index ys o.
  Proof.
    unfold conv_keys. rewrite in_flat_map. intros (c & Hc & H). apply in_zrange in Hc. cbv zeta in H.
    destruct (andb _ _) eqn:B; [|destruct H]. apply andb_true_iff in B as [B1 B2]. apply Z.leb_le in B1. apply Z.ltb_lt in B2.
    apply in_flat_map in H as (o & Ho & H). apply in_flat_map in H as (t & Ht & H). apply in_indices in Ho, Ht.
    destruct (list_eq_dec Z.eq_dec _ q); [|destruct H]. destruct H as [<-|[]]. cbn [fst snd]. split.
    - apply valid_index_cons. split; [exact Hc|]. apply valid_index_cons. split; [lia|exact Ht].
    - exists c, o. auto.
  Qed.
End Keys.

Definition key_term {R : CRing} (W dY : tensor R) (k : list Z * list Z) : term R := Prod (tat W (fst k)) (tat dY (snd k)).

Lemma input_terms_keys {R : CRing} w groups cin cout (W dY : tensor R) ys b' ch q :
  input_terms w groups cin cout W dY ys b' ch q = map (key_term W dY) (conv_keys w groups cin cout ys b' ch q).
Proof.
  unfold input_terms, conv_keys. cbv zeta.
  assert (FM : forall {A B C} (f : A -> list B) (g : B -> C) l, map g (flat_map f l) = flat_map (fun a => map g (f a)) l).
  { intros A B C f g l. induction l as [|a l IH]; cbn [flat_map]; auto. now rewrite map_app, IH. }
  rewrite FM. apply flat_map_ext. intros c. destruct (andb _ _); [|reflexivity].
  rewrite FM. apply flat_map_ext. intros o. rewrite FM. apply flat_map_ext. intros t.
  destruct (list_eq_dec Z.eq_dec _ q); reflexivity.
Qed.

(** With units for weight and cotangent the sum counts a pair of indices. *)
Lemma key_count s1 s2 wi yi l :
  sumf (map (key_term (@unit_at Zring s1 wi) (unit_at s2 yi)) l) exact_term = Z.of_nat (count_occ key_dec l (wi, yi)).
Proof.
  induction l as [|[a c] l IH]; [reflexivity|]. cbn [map]. rewrite sumf_cons, IH. cbn [key_term exact_term unit_at tat fst snd count_occ].
  destruct (key_dec (a, c) (wi, yi)) as [E|N].
  - inversion E. subst. rewrite !zlist_eqb_refl. cbn [rmul radd rone Zring]. lia.
  - destruct (zlist_eqb wi a) eqn:E1; [|cbn [rmul radd rzero Zring]; lia]. destruct (zlist_eqb yi c) eqn:E2; [|cbn [rmul radd rone rzero Zring]; lia].
    apply zlist_eqb_eq in E1, E2. subst. now destruct N.
Qed.

(** * Cropping *)
Lemma pad_backward_value {R : CRing} (total : list (Z * Z)) (s : list Z) (e : tensor R) :
  length total = length s -> Forall (fun p => 0 <= fst p /\ 0 <= snd p) total ->
  tshape e = map2 (fun n p => n + fst p + snd p) s total ->
  exists t, pad_backward total e = Ok t /\ tshape t = s /\
    forall p, valid_index s p -> valid_index (tshape e) (vadd (map fst total) p) /\ tat t p = tat e (vadd (map fst total) p).
Proof.
  intros Hl Hn Se.
  assert (V : forall p, valid_index s p -> valid_index (tshape e) (vadd (map fst total) p)).
  { intros p Hp. pose proof (valid_index_length _ _ Hp) as Lp. apply valid_index_nth.
    rewrite Se, vadd_len, map_length, map2_length by (rewrite ?map_length; lia). split; [lia|]. intros j Hj.
    rewrite map2_nth with (da := 0) (db := (0, 0)) by lia. rewrite vadd_nth by (rewrite ?map_length; lia).
    rewrite fst_nth. apply valid_index_nth in Hp as [_ Hp]. specialize (Hp j ltac:(lia)).
    rewrite Forall_forall in Hn. pose proof (Hn (nth j total (0, 0)) ltac:(apply nth_In; lia)). cbn [fst]. lia. }
  unfold pad_backward. destruct (Z.eqb_spec (zsum (map (fun p => fst p + snd p) total)) 0) as [E|E].
  - assert (Z0 : total = repeat (0, 0) (length s)).
    { rewrite <- Hl. clear - Hn E. induction Hn as [|p l Hp F IH]; [reflexivity|]. cbn [map zsum fold_right] in E.
      fold (zsum (map (fun p : Z * Z => fst p + snd p) l)) in *.
      assert (0 <= zsum (map (fun p => fst p + snd p) l)).
      { clear - F. induction F as [|p l Hp F IH]; cbn [map zsum fold_right] in *; [lia|]. fold (zsum (map (fun p : Z * Z => fst p + snd p) l)) in *. lia. }
      cbn [length repeat]. rewrite <- IH by lia. destruct p as [p0 p1]. cbn [fst snd] in *. replace p0 with 0 by lia. now replace p1 with 0 by lia. }
    exists e. split; [reflexivity|]. split.
    + rewrite Se, Z0. clear. induction s; auto. cbn [length repeat map2 fst snd]. f_equal; auto. lia.
    + intros p Hp. split; [auto|]. f_equal. apply valid_index_length in Hp. rewrite Z0, <- Hp. clear.
      unfold vadd. induction p; auto. cbn [length repeat map map2 fst]. f_equal; auto.
  - assert (Le : length (tshape e) = length total) by (rewrite Se, map2_length; lia). rewrite opp_padding.
    destruct (C42_proof R rzero (map (fun p => (- fst p, - snd p)) total) e) as (dx & F1 & F2 & F3); [rewrite map_length; lia|].
    rewrite F1. exists dx. split; [reflexivity|]. split.
    + rewrite F2, Se. clear - Hl. revert s Hl. induction total as [|p l IH]; intros [|n sh] Hl; try discriminate; auto.
      cbn [map map2 fst snd]. f_equal; [lia|]. apply IH. now injection Hl.
    + intros p Hp. split; [auto|]. pose proof (valid_index_length _ _ Hp) as Lp. specialize (V p Hp).
      rewrite F3 by (rewrite ?map_length; lia). cbn [padded tat].
      assert (Eq' : map2 (fun (k : Z) (q : Z * Z) => k - fst q) p (map (fun p => (- fst p, - snd p)) total) = vadd (map fst total) p).
      { apply list_eq_nth with (d := 0); [rewrite map2_length, vadd_len; rewrite ?map_length; lia|]. intros j Hj. rewrite map2_length in Hj by (rewrite ?map_length; lia).
        rewrite map2_nth with (da := 0) (db := (0, 0)) by (rewrite ?map_length; lia). rewrite vadd_nth by (rewrite ?map_length; lia).
        rewrite (map_nth (fun p : Z * Z => (- fst p, - snd p)) total (0, 0) j : nth j _ (0, 0) = _).
        rewrite fst_nth. cbn [fst]. lia. }
      rewrite Eq', padded_test by (apply valid_index_length in V; exact V). now rewrite (proj2 (inside_spec (tshape e) (vadd (map fst total) p))).
Qed.

(** * The worker's part *)
Lemma bare_window w o t : window_ok (length (w_kernel w)) w -> length o = length (w_kernel w) -> length t = length (w_kernel w) ->
  window_at (bare w) o t = window_point w o t.
Proof.
  intros (W1 & W2 & W3 & W4 & _) Lo Lt. unfold window_at, window_point, vadd. cbn [bare w_kernel w_stride w_padding w_dilation].
  apply list_eq_nth with (d := 0); [rewrite vec_length, !map2_length; rewrite ?map2_length; lia|].
  intros k Hk. rewrite vec_length in Hk. rewrite vec_nth by auto. rewrite nth_zeros.
  rewrite map2_nth with (da := 0) (db := 0); rewrite ?map2_length; try lia.
  rewrite !map2_nth with (da := 0) (db := 0); try lia.
Qed.

Section Local.
  Variables (world : list Z) (P : part) (L : layout) (w : window) (groups cin cout : Z).
  Hypothesis HG : feature_given world P L w.
  Hypothesis H1 : nth 1 (p_shape P) 0 = 1.
  Variables (b : Z) (xs ys : list Z).
  Hypothesis EL : layout_shape L = b :: cin :: xs.
  Hypothesis Hcnt : counts xs w ys.
  Hypothesis Hb : 0 < b.
  Hypothesis Hc0 : 0 < cin.
  Hypothesis Hcout : 0 < cout.
  Hypothesis Hys : Forall (fun n => 0 < n) ys.
  Hypothesis Hin : within L w (b :: cin :: ys).
  Let Ly := balanced (b :: cout :: ys) (p_shape P).
  Let Lp := pad_layout L (0 :: 0 :: w_padding w).
  Let H := feature_halos L w.
  Let nk := length (w_kernel w).

  Definition rows (idx : list Z) : Z := subshape1 (nth 0 (p_shape P) 0) (nth 0 idx 0) b.
  Definition extents (idx : list Z) : list Z :=
    vec nk (fun k => subshape1 (nth (2 + k) (p_shape P) 0) (nth (2 + k) idx 0) (nth k ys 0)).

  Lemma lc_part : part_ok P. Proof. apply HG. Qed.
  Lemma lc_window : window_ok nk w. Proof. apply HG. Qed.
  Lemma lc_ys : length ys = nk.
  Proof.
    destruct HG as (_ & _ & _ & _ & HW & Hl & _). rewrite <- HW, layout_workers_length, <- (layout_shape_length L), EL in Hl. cbn [length] in Hl.
    destruct Hcnt as [Ec _]. unfold nk. lia.
  Qed.
  Lemma lc_dims : length (p_shape P) = S (S nk). Proof. apply HG. Qed.
  Lemma lc_pos : pos_shape (p_shape P). Proof. apply lc_part. Qed.
  Lemma lc_nonneg : nonneg_shape (b :: cout :: ys).
  Proof. constructor; [lia|]. constructor; [lia|]. eapply Forall_impl; [|exact Hys]. cbn. lia. Qed.
  Lemma lc_out : layout_ok Ly /\ layout_workers Ly = p_shape P /\ layout_shape Ly = b :: cout :: ys.
  Proof.
    pose proof lc_pos. pose proof lc_nonneg. unfold Ly. split; [now apply balanced_ok|].
    assert (length (b :: cout :: ys) = length (p_shape P)) by (rewrite lc_dims; cbn [length]; now rewrite lc_ys).
    split; [now apply balanced_workers|now apply balanced_shape].
  Qed.

  (** A worker's block of the output. *)
  Lemma lc_block idx : valid_index (p_shape P) idx -> block_shape Ly idx = rows idx :: cout :: extents idx.
  Proof.
    intros Hi. unfold Ly. rewrite balanced_block_shape; [|exact lc_pos|rewrite lc_dims; cbn [length]; now rewrite lc_ys|exact Hi].
    pose proof lc_dims as Ld. pose proof lc_ys as Ls. pose proof H1 as E1. unfold rows, extents.
    destruct (p_shape P) as [|n0 [|n1 ns]]; try discriminate Ld.
    apply valid_index_cons_inv in Hi as (i0 & i' & -> & Hi0 & Hi). apply valid_index_cons_inv in Hi as (i1 & is & -> & Hi1 & Hi).
    cbn [nth] in E1. subst n1. assert (i1 = 0) by lia. subst i1. unfold compute_subshape. cbn [map3 nth Nat.add]. f_equal. f_equal; [apply unit_sub|].
    apply valid_index_length in Hi. cbn [length] in Ld. assert (Ln : length ns = nk) by lia. clear - Ln Ls Hi.
    apply list_eq_nth with (d := 0); [rewrite vec_length, map3_length; lia|]. intros k Hk. rewrite map3_length in Hk by lia.
    rewrite vec_nth by lia. now rewrite map3_nth with (da := 0) (db := 0) (dc := 0) by lia.
  Qed.

  (** What its torch layer gets. *)
  Lemma lc_slice idx : valid_index (p_shape P) idx -> exists es,
    compute_nd_slice_shape (slice_of L w idx) = rows idx :: cin :: es /\ length es = nk /\ nonneg_shape es /\
    counts es (bare w) (extents idx) /\ 0 < rows idx /\ Forall (fun n => 0 < n) (extents idx).
  Proof.
    intros Hi. assert (Eg : tshape (@tzeros Zring (b :: cin :: xs)) = b :: cin :: xs) by reflexivity.
    set (G0 := @tzeros Zring (b :: cin :: xs)) in *. set (x0 := fun v => match index_in P v with Some i => block L i G0 | None => G0 end).
    assert (HB0 : holds_blocks P L G0 x0).
    { split; [now rewrite EL|]. intros i v Hv. unfold x0. rewrite (proj2 (index_in_spec P v i lc_part) Hv). apply teq_refl. }
    set (f0 := fun (_ _ : Z) (_ : Z -> list Z -> Zring) => (rzero : Zring)).
    set (Y0 := @tzeros Zring (b :: cin :: ys)).
    assert (HY0 : forall b' c' o, valid_index (tshape Y0) (b' :: c' :: o) -> tat Y0 (b' :: c' :: o) =
      f0 cin c' (fun ch t => value_at G0 rzero (b' :: ch :: vec (length xs) (fun j => nth j (w_stride w) 0 * nth j o 0 - nth j (w_padding w) 0 + nth j (w_dilation w) 0 * nth j t 0)))) by reflexivity.
    pose proof (ext_facts world P L w f0 rzero G0 Y0 x0 HG b cin xs ys Eg Hcnt Hb Hc0 Hys HY0 HB0 Hin idx Hi) as EF.
    destruct (ext_cons world P L w f0 rzero G0 Y0 x0 HG b cin xs ys Eg Hcnt Hb Hc0 Hys HY0 HB0 Hin idx Hi) as (es & Ee & Le & Ne).
    assert (Gl : length L = S (S (nf w))) by (destruct HG as (_ & _ & _ & _ & A & B & _); rewrite <- layout_workers_length, A, B; reflexivity).
    assert (Gc : counts (layout_shape L) (full_window (length L) w) (b :: cin :: ys))
      by exact (g_counts world P L w f0 rzero G0 Y0 x0 HG b cin xs ys Eg Hcnt Hb Hc0 HY0 HB0).
    assert (S1 : compute_nd_slice_shape (slice_of L w idx) = local_extents L w (b :: cin :: ys) idx).
    { pose proof (sliced_shape P L w (b :: cin :: ys) (fun v => tshape (x0 v)) lc_part ltac:(apply HG) ltac:(apply HG) Gl ltac:(apply HG) Gc
        ltac:(repeat (constructor; auto)) Hin (fun v i Hv => proj1 (proj2 HB0 i v Hv)) idx Hi (@tzeros Zring (padded_shape Lp H idx)) eq_refl) as S.
      exact S. }
    assert (Hi1 : subshape1 (nth 1 (p_shape P) 0) (nth 1 idx 0) cin = cin).
    { rewrite H1. apply valid_index_nth in Hi as [_ Hi]. specialize (Hi 1%nat ltac:(rewrite lc_dims; lia)). rewrite H1 in Hi.
      replace (nth 1 idx 0) with 0 by lia. apply unit_sub. }
    cbv beta in Ee. change (nth 0 (b :: cin :: ys) 0) with b in Ee. change (nth 1 (b :: cin :: ys) 0) with cin in Ee. rewrite Hi1 in Ee.
    assert (EK : forall k, (k < nk)%nat -> out_extent (nth k es 0) (nth k (w_kernel w) 0) (nth k (w_stride w) 0) 0 (nth k (w_dilation w) 0) = nth k (extents idx) 0 /\
       0 < nth k (extents idx) 0 /\ 0 <= nth k es 0).
    { intros k Hk. pose proof (EF (2 + k)%nat ltac:(rewrite Gl; unfold nf, nk in *; lia)) as F. rewrite (g_fw world P L w G0 x0 HG HB0) in F.
      cbn [w_kernel w_stride w_dilation Nat.add nth] in F. rewrite <- Ne in F by exact Hk. destruct F as (F1 & F2 & F3 & F4 & F5 & _).
      unfold extents. rewrite vec_nth by exact Hk. split; [exact F1|]. split; [exact F3|].
      destruct (window_nth _ _ k lc_window Hk) as (B1 & _). cbn [Nat.add] in *. nia. }
    exists es. split; [rewrite S1; exact Ee|]. split; [exact Le|]. split; [|split; [|split]].
    - apply Forall_forall. intros z Hz. apply In_nth with (d := 0) in Hz as (k & Hk & <-). rewrite Le in Hk. apply EK, Hk.
    - unfold extents. split; [rewrite vec_length; symmetry; exact Le|]. intros k Hk. rewrite Le in Hk. cbn [bare w_kernel w_stride w_padding w_dilation].
      rewrite nth_zeros. destruct (EK k Hk) as (O1 & O2 & _). destruct (window_nth _ _ k lc_window Hk) as (B1 & B2 & _). fold (extents idx).
      split; [lia|]. intros o Ho. rewrite <- O1. now apply out_extent_count.
    - pose proof (EF 0%nat ltac:(rewrite Gl; lia)) as (_ & _ & F & _). exact F.
    - apply Forall_forall. intros z Hz. apply In_nth with (d := 0) in Hz as (k & Hk & <-). unfold extents in Hk. rewrite vec_length in Hk. apply EK, Hk.
  Qed.

  Lemma lc_local {R : CRing} idx (t wt g : tensor R) : valid_index (p_shape P) idx -> 0 < groups -> (groups | cin) -> (groups | cout) ->
    tshape t = compute_nd_slice_shape (slice_of L w idx) -> tshape wt = cout :: cin / groups :: w_kernel w ->
    tshape g = block_shape Ly idx ->
    exists es, conv_arguments (bare w) groups cin cout t wt None (rows idx) es (extents idx) /\ tshape g = rows idx :: cout :: extents idx /\
      tshape t = rows idx :: cin :: es.
  Proof.
    intros Hi G1 G2 G3 Et Ew Eg. destruct (lc_slice idx Hi) as (es & Es & Le & Ne & Ce & Hr & He). exists es.
    split; [|split; [now rewrite Eg, lc_block|congruence]].
    split; [exact G1|]. split; [exact G2|]. split; [exact G3|]. split; [exact Hc0|]. split; [exact Hcout|]. split; [exact Hr|].
    split; [congruence|]. split; [exact Le|]. split; [exact Ne|]. split; [exact Ce|]. split; [exact He|]. split; [exact Ew|exact I].
  Qed.

  Definition shifted (idx : list Z) (k : list Z * list Z) : list Z * list Z := (fst k, vadd (block_lo Ly idx) (snd k)).

  (** The terms of entry [q] of the cotangent that worker [idx] hands to its halo layer. *)
  Definition local_keys (idx q : list Z) : list (list Z * list Z) :=
    if in_slice (slice_of L w idx) q then
      match map2 (fun s k => k - fst s) (slice_of L w idx) q with
      | b' :: ch :: q' => map (shifted idx) (conv_keys (bare w) groups cin cout (extents idx) b' ch q')
      | _ => []
      end
    else [].

  Lemma lc_cotangent {R : CRing} (M : machine R) (W dY : tensor R) idx (wt g d : tensor R) q : valid_index (p_shape P) idx ->
    tshape W = cout :: cin / groups :: w_kernel w -> teq wt W -> teq g (block Ly idx dY) ->
    tshape d = compute_nd_slice_shape (slice_of L w idx) ->
    (forall b' ch q', valid_index (tshape d) (b' :: ch :: q') ->
       evaluates M (input_terms (bare w) groups cin cout wt g (extents idx) b' ch q') (tat d (b' :: ch :: q'))) ->
    evaluates M (map (key_term W dY) (local_keys idx q)) (tat (slice_backward (padded_shape Lp H idx) (slice_of L w idx) d) q).
  Proof.
    intros Hi EW Hwt Hg Ed Vd. unfold slice_backward, write_slice. rewrite Ed, zlist_eqb_refl. cbn [tat tzeros]. unfold local_keys.
    destruct (in_slice (slice_of L w idx) q) eqn:Eq; [|constructor]. apply in_slice_window in Eq as (p & Hp & ->).
    assert (Ep : map2 (fun (s : Z * Z) k => k - fst s) (slice_of L w idx) (vadd (map fst (slice_of L w idx)) p) = p).
    { pose proof (valid_index_length _ _ Hp) as Lq. rewrite slice_shape_len in Lq. clear - Lq. revert p Lq.
      induction (slice_of L w idx) as [|s sl IH]; intros [|k p] Lq; try discriminate; auto. unfold vadd in *. cbn [map map2]. f_equal; [lia|]. apply IH. now injection Lq. }
    rewrite Ep. destruct (lc_slice idx Hi) as (es & Es & _ & _ & _ & _). pose proof Hp as Hp'. rewrite Es in Hp'.
    apply valid_index_cons_inv in Hp' as (b' & p' & -> & Hb' & Hp'). apply valid_index_cons_inv in Hp' as (ch & q' & -> & Hch & Hq').
    specialize (Vd b' ch q'). rewrite Ed in Vd. specialize (Vd Hp). rewrite input_terms_keys in Vd.
    replace (map (key_term W dY) (map (shifted idx) (conv_keys (bare w) groups cin cout (extents idx) b' ch q')))
      with (map (key_term wt g) (conv_keys (bare w) groups cin cout (extents idx) b' ch q')); [exact Vd|].
    rewrite map_map. apply map_ext_in. intros k Hk. apply conv_keys_in in Hk as (K1 & c & o & K2 & Hc & Ho). unfold key_term, shifted. cbn [fst snd].
    destruct Hwt as [Sw Vw], Hg as [Sg Vg]. rewrite Vw by (rewrite Sw, EW; exact K1). f_equal.
    rewrite Vg; [reflexivity|]. rewrite Sg. cbn [block tshape]. rewrite lc_block by exact Hi. rewrite K2.
    apply valid_index_cons. split; [exact Hb'|]. apply valid_index_cons. split; [exact Hc|exact Ho].
  Qed.

  (** torch's gradient in the ring. *)
  Lemma lc_sliding {R : CRing} (wt g : tensor R) idx b' ch q' : valid_index (p_shape P) idx -> tshape g = block_shape Ly idx ->
    evaluates (exact_machine R) (input_terms (bare w) groups cin cout wt g (extents idx) b' ch q')
      (tat (sliding_backward (conv_coefficients cout groups wt) w (compute_nd_slice_shape (slice_of L w idx)) g) (b' :: ch :: q')).
  Proof.
    intros Hi Eg. destruct (lc_slice idx Hi) as (es & Es & Le & _). rewrite lc_block in Eg by exact Hi.
    enough (E : tat (sliding_backward (conv_coefficients cout groups wt) w (compute_nd_slice_shape (slice_of L w idx)) g) (b' :: ch :: q') =
                tat (input_gradient (conv_coefficients cout groups wt) (bare w) (rows idx :: cin :: es) g) (b' :: ch :: q')).
    { rewrite E, <- (input_terms_sum (bare w) groups cin cout wt g (rows idx) es (extents idx)); [apply exact_evaluates|exact Le|exact Eg]. }
    rewrite Es. cbn [sliding_backward input_gradient tat]. rewrite Eg. cbn [nth skipn bare w_kernel].
    apply sumf_ext. intros c _. apply sumf_ext. intros o Ho. apply sumf_ext. intros t Ht. apply in_indices in Ho, Ht.
    apply valid_index_length in Ho, Ht. unfold extents in Ho. rewrite vec_length in Ho.
    assert (Ew : seen_point (length es) (bare w) o t = window_point w o t).
    { rewrite <- (bare_window w o t lc_window Ho Ht). unfold seen_point, window_at. cbn [bare w_kernel]. now rewrite Le. }
    rewrite Ew. destruct (zlist_eqb (window_point w o t) q') eqn:E1; destruct (list_eq_dec Z.eq_dec (window_point w o t) q') as [E2|E2]; auto.
    - apply zlist_eqb_eq in E1. congruence.
    - subst. now rewrite zlist_eqb_refl in E1.
  Qed.

  (** * After the exchange *)
  Definition index_of (v : Z) : list Z := match index_in P v with Some i => i | None => [] end.
  Lemma index_of_spec idx v : worker_at P idx v -> index_of v = idx.
  Proof. intros Hv. unfold index_of. now rewrite (proj2 (index_in_spec P v idx lc_part) Hv). Qed.

  (** The entries that are added to entry [q] of worker [idx]. *)
  Definition collected (idx q : list Z) : list (Z * list Z) :=
    if inside (block_shape Lp idx) (vsub q (left_halo H idx))
    then all_copies P Lp H (vadd (block_lo Lp idx) (vsub q (left_halo H idx))) else [].
  Definition all_keys (idx q : list Z) : list (list Z * list Z) :=
    flat_map (fun e => local_keys (index_of (fst e)) (snd e)) (collected idx q).

  Lemma lc_left idx : valid_index (p_shape P) idx -> length (left_halo H idx) = length L /\ length (padded_shape Lp H idx) = length L.
  Proof.
    intros Hi. assert (Gl : length L = S (S (nf w))) by (destruct HG as (_ & _ & _ & _ & A & B & _); rewrite <- layout_workers_length, A, B; reflexivity).
    split; [apply (left_len P L w); auto; apply HG|apply (padded_len P L w); auto; apply HG].
  Qed.

  Section After.
    Context {R : CRing}.
    Variables (M : machine R) (W dY : tensor R).
    Variables (shape : Z -> list Z) (recv send : Z -> list (Z * Z)).
    Variables (pre : list (@call R)) (back : Z -> tensor R) (init : Z -> @hst R) (eager : Z -> Z -> Z -> nat -> bool) (gb : @gst (@hst R) (tensor R)).
    Hypothesis HH : halo_given world P Lp H.
    Hypothesis HN : halos_narrow Lp H.
    Hypothesis HPl : planned P Lp H shape recv send.
    Hypothesis Hpre : Forall (call_ok P Lp H) pre.
    Hypothesis He : ends world (history_rounds_by P shape recv send (m_add M) (pre ++ [HBackward back])) init eager gb.
    Hypothesis Hback : forall idx v, worker_at P idx v -> tshape (back v) = padded_shape Lp H idx /\
      forall q, evaluates M (map (key_term W dY) (local_keys idx q)) (tat (back v) q).

    Lemma lc_result idx v : worker_at P idx v -> tshape (halo_result gb v) = padded_shape Lp H idx /\
      forall q, valid_index (padded_shape Lp H idx) q -> evaluates M (map (key_term W dY) (all_keys idx q)) (tat (halo_result gb v) q).
    Proof.
      intros Hv. assert (Hc : Forall (call_ok P Lp H) (pre ++ [HBackward back])).
      { apply Forall_app. split; [exact Hpre|]. constructor; [|constructor]. intros i u Hu. apply (Hback i u Hu). }
      destruct (C76_proof R M world P Lp H shape recv send pre back init eager gb HH HN HPl Hc He) as [K _].
      destruct (K idx v Hv) as (K1 & K2 & K3). split; [exact K1|]. intros q Hq. clear K.
      assert (E : evaluates M (cotangents back (collected idx q)) (tat (halo_result gb v) q)).
      { unfold collected. destruct (lc_left idx (proj1 Hv)) as [Ll Lq]. pose proof (valid_index_length _ _ Hq) as Lv. rewrite Lq in Lv.
        assert (Eq : q = vadd (left_halo H idx) (vsub q (left_halo H idx))) by (symmetry; apply vadd_vsub'; lia).
        assert (Lb : length (block_shape Lp idx) = length L).
        { assert (Gl : length L = S (S (nf w))) by (destruct HG as (_ & _ & _ & _ & A & B & _); rewrite <- layout_workers_length, A, B; reflexivity).
          assert (LL : length Lp = length L) by (apply Lp_length; [exact Gl|apply HG]). rewrite block_shape_length; [exact LL|].
          destruct Hv as [Hv _]. apply valid_index_length in Hv. rewrite Hv, LL, <- layout_workers_length. destruct HG as (_ & _ & _ & _ & A & _). now rewrite A. }
        destruct (inside (block_shape Lp idx) (vsub q (left_halo H idx))) eqn:Ei.
        - apply (K2 (vsub q (left_halo H idx))); [|apply C76_copies, lc_part]. split; [now apply inside_spec|exact Eq].
        - apply K3; [exact Hq|]. intros p [Hp Ep].
          assert (p = vsub q (left_halo H idx)) by (rewrite Ep; symmetry; apply vadd_vsub; apply valid_index_length in Hp; lia).
          subst p. apply inside_spec in Hp. congruence. }
      unfold all_keys. clear K1 K2 K3.
      assert (HC : forall e, In e (collected idx q) -> exists i, worker_at P i (fst e) /\ evaluates M (map (key_term W dY) (local_keys (index_of (fst e)) (snd e))) (tat (back (fst e)) (snd e))).
      { intros [u q0] Hin'. unfold collected in Hin'. destruct (inside _ _); [|destruct Hin'].
        apply (proj2 (C76_copies P Lp H _ lc_part)) in Hin' as (i & Hu & _). exists i. cbn [fst snd]. split; [exact Hu|].
        rewrite (index_of_spec i u Hu). now apply Hback. }
      pose proof (evaluates_concat M (map (fun e => (map (key_term W dY) (local_keys (index_of (fst e)) (snd e)), tat (back (fst e)) (snd e))) (collected idx q)) (tat (halo_result gb v) q)) as EC.
      rewrite !map_map in EC. cbn [fst snd] in EC.
      replace (map (key_term W dY) (flat_map (fun e => local_keys (index_of (fst e)) (snd e)) (collected idx q)))
        with (concat (map (fun e => map (key_term W dY) (local_keys (index_of (fst e)) (snd e))) (collected idx q))).
      - apply EC; [|exact E]. intros p Hp. apply in_map_iff in Hp as (e & <- & Hi). cbn [fst snd]. destruct (HC e Hi) as (_ & _ & X). exact X.
      - clear. induction (collected idx q) as [|e l IH]; cbn [map concat flat_map]; auto. now rewrite map_app, IH.
    Qed.
  End After.

  Hypothesis Hg : 0 < groups.
  Hypothesis Hgi : (groups | cin).
  Hypothesis Hgo : (groups | cout).

  Lemma lc_len : length L = S (S (nf w)).
  Proof. destruct HG as (_ & _ & _ & _ & A & B & _). rewrite <- layout_workers_length, A, B. reflexivity. Qed.
  Definition block_of (v : Z) : list Z := block_shape L (index_of v).
  Lemma block_of_spec idx v : worker_at P idx v -> block_of v = block_shape L idx.
  Proof. intros Hv. unfold block_of. now rewrite (index_of_spec idx v Hv). Qed.

  Lemma lc_total idx : valid_index (p_shape P) idx ->
    length (total_of P L w idx) = length (block_shape L idx) /\ Forall (fun p => 0 <= fst p /\ 0 <= snd p) (total_of P L w idx) /\
    padded_shape Lp H idx = map2 (fun n p => n + fst p + snd p) (block_shape L idx) (total_of P L w idx).
  Proof.
    intros Hi. pose proof lc_len as Gl. assert (Gk : layout_workers L = p_shape P) by apply HG. assert (Gw : window_ok (nf w) w) by apply HG.
    assert (Gs : forall v i, worker_at P i v -> block_of v = block_shape L i) by (intros; now apply block_of_spec).
    pose proof (total_len P L w Gk Gl Gw idx Hi) as Lt. split; [|split].
    - rewrite block_shape_length; [exact Lt|]. apply valid_index_length in Hi. rewrite Hi, <- Gk. apply layout_workers_length.
    - apply Forall_forall. intros p Hp. apply In_nth with (d := (0, 0)) in Hp as (j & Hj & <-).
      assert (Hj' : (j < length L)%nat) by (rewrite <- Lt; exact Hj).
      pose proof (total_at P L w block_of Gk Gl Gw Gs idx Hi j Hj') as E.
      pose proof (pad_nonneg P L w [] block_of Gk Gl Gw Gs idx Hi j Hj') as N. cbv beta in E, N. unfold total_of. rewrite E. cbn [fst snd]. lia.
    - symmetry. exact (padded_sum P L w [] block_of Gk Gl Gw Gs idx Hi).
  Qed.

  Lemma lc_narrow : halos_narrow Lp H.
  Proof.
    assert (Eg : tshape (@tzeros Zring (b :: cin :: xs)) = b :: cin :: xs) by reflexivity.
    set (G0 := @tzeros Zring (b :: cin :: xs)) in *. set (x0 := fun v => match index_in P v with Some i => block L i G0 | None => G0 end).
    assert (HB0 : holds_blocks P L G0 x0).
    { split; [now rewrite EL|]. intros i v Hv. unfold x0. rewrite (proj2 (index_in_spec P v i lc_part) Hv). apply teq_refl. }
    set (f0 := fun (_ _ : Z) (_ : Z -> list Z -> Zring) => (rzero : Zring)).
    set (Y0 := @tzeros Zring (b :: cin :: ys)).
    assert (HY0 : forall b' c' o, valid_index (tshape Y0) (b' :: c' :: o) -> tat Y0 (b' :: c' :: o) =
      f0 cin c' (fun ch t => value_at G0 rzero (b' :: ch :: vec (length xs) (fun j => nth j (w_stride w) 0 * nth j o 0 - nth j (w_padding w) 0 + nth j (w_dilation w) 0 * nth j t 0)))) by reflexivity.
    pose proof (g_counts world P L w f0 rzero G0 Y0 x0 HG b cin xs ys Eg Hcnt Hb Hc0 HY0 HB0) as Gc.
    exact (narrow P L w (b :: cin :: ys) block_of lc_part ltac:(apply HG) ltac:(apply HG) lc_len ltac:(apply HG) Gc ltac:(repeat (constructor; auto)) Hin
      (fun v i Hv => block_of_spec i v Hv)).
  Qed.

  (** Where a worker's entry [p] is in its padded tensor. *)
  Definition place (idx p : list Z) : list Z := vadd (map fst (total_of P L w idx)) p.

  Lemma lc_cropped {R : CRing} idx v (x dy bk : Z -> tensor R) : worker_at P idx v ->
    (forall i u, worker_at P i u -> tshape (x u) = block_shape L i) -> tshape (bk v) = padded_shape Lp H idx ->
    exists t, feature_gradient P w (fun u => tshape (x u)) dy bk v = Ok t /\ tshape t = block_shape L idx /\
      forall p, valid_index (block_shape L idx) p -> valid_index (padded_shape Lp H idx) (place idx p) /\ tat t p = tat (bk v) (place idx p).
  Proof.
    intros Hv Hx Sb. rewrite (ow_gradient world P L w HG x Hx dy bk idx v Hv).
    destruct (lc_total idx (proj1 Hv)) as (T1 & T2 & T3). rewrite T3 in Sb.
    destruct (pad_backward_value (total_of P L w idx) (block_shape L idx) (bk v) T1 T2 Sb) as (t & Et & St & Vt).
    exists t. split; [exact Et|]. split; [exact St|]. intros p Hp. destruct (Vt p Hp) as [V1 V2]. rewrite Sb, <- T3 in V1. auto.
  Qed.

  Lemma lc_keys idx p b' ch q : valid_index (p_shape P) idx -> valid_index (block_shape L idx) p -> vadd (block_lo L idx) p = b' :: ch :: q ->
    Permutation (all_keys idx (place idx p)) (conv_keys w groups cin cout ys b' ch q).
  Proof.
    intros Hi Hp Ep. apply (proj2 (Permutation_count_occ key_dec _ _)). intros [wi yi].
    set (W := @unit_at Zring (cout :: cin / groups :: w_kernel w) wi). set (dY := @unit_at Zring (b :: cout :: ys) yi).
    set (K := conv_coefficients cout groups W). set (f := conv_kernel w cout groups W None).
    assert (HK : linear_kernel w f (fun _ => cout) K) by (apply (C51_convolution_kernels Zring w cout groups W); auto).
    set (x := fun v => @tzeros Zring (block_of v)). set (dy := fun v => block Ly (index_of v) dY).
    set (back := fun v => match index_in P v with Some i => local_back L w i K (dy v) | None => dy v end).
    assert (Hx : forall i u, worker_at P i u -> tshape (x u) = block_shape L i) by (intros i u Hu; cbn [x tzeros tshape]; now apply block_of_spec).
    assert (Hdy : holds_blocks P Ly dY dy).
    { split; [destruct lc_out as (_ & _ & ->); reflexivity|]. intros i u Hu. unfold dy. rewrite (index_of_spec i u Hu). apply teq_refl. }
    assert (Hbk : forall i u, worker_at P i u -> back u = local_back L w i K (dy u)).
    { intros i u Hu. unfold back. now rewrite (proj2 (index_in_spec P u i lc_part) Hu). }
    assert (Hbi : forall u, ~ In u (p_ranks P) -> back u = dy u).
    { intros u Hu. unfold back. destruct (index_in P u) as [i|] eqn:Ei; [|reflexivity]. apply (index_in_spec P u i lc_part) in Ei.
      apply worker_at_In in Ei. contradiction. }
    assert (HH : halo_given world P Lp H) by exact (fg_given world P L w HG block_of block_of_spec).
    pose proof (ow_planned world P L w HG [] x Hx) as HPl. cbv zeta in HPl.
    destruct (async_ends _ _ _ _ (fun _ _ _ _ => true) (halo_async world P Lp H _ _ _ HH HPl ([] ++ [HBackward back])
      (fun _ => mkhst (tzeros []) (tzeros []) (tzeros []) []))) as [gb Hgb].
    set (v := wk P idx). assert (Hv : worker_at P idx v) by (apply wk_worker; [exact lc_part|exact Hi]).
    destruct (gradient_blocks_any world P L w HG f (fun _ => f) (fun _ => cout) K (fun _ => K) HK (fun _ _ => HK) b cin xs ys
      (fun _ _ _ _ _ => eq_refl) (fun _ _ => or_introl H1) EL Hcnt Hb Hc0 (Z.lt_le_incl _ _ Hcout) Hys Hin x dy back dY Hx eq_refl Hdy
      _ _ _ HPl Hbk Hbi [] _ _ gb (Forall_nil _) Hgb idx v Hv) as (t & Et & St & Vt).
    assert (Q : forall i u, worker_at P i u -> tshape (back u) = padded_shape Lp H i /\
        forall q0, evaluates (exact_machine Zring) (map (key_term W dY) (local_keys i q0)) (tat (back u) q0)).
    { intros i u Hu. rewrite (Hbk i u Hu). split; [exact (fg_back_shape world P L w HG block_of block_of_spec i (proj1 Hu) K (dy u))|].
      intros q0. assert (Tg : teq (dy u) (block Ly i dY)) by (apply Hdy; exact Hu).
      apply (lc_cotangent (exact_machine Zring) W dY i W (dy u) (sliding_backward K w (compute_nd_slice_shape (slice_of L w i)) (dy u)) q0 (proj1 Hu) eq_refl (teq_refl _) Tg eq_refl).
      intros b0 c0 q1 _. apply (lc_sliding W (dy u) i b0 c0 q1 (proj1 Hu)). destruct Tg as [-> _]. reflexivity. }
    destruct (lc_result (exact_machine Zring) W dY _ _ _ [] back _ _ gb HH lc_narrow HPl (Forall_nil _) Hgb Q idx v Hv) as [S1 V1].
    destruct (lc_cropped idx v x dy (halo_result gb) Hv Hx S1) as (t' & Et' & St' & Vt').
    assert (t' = t) by congruence. subst t'. destruct (Vt' p Hp) as [Hq Eq'].
    specialize (V1 _ Hq). apply evaluates_exact in V1. rewrite <- Eq', Vt in V1 by (rewrite St'; exact Hp). cbn [block tat] in V1. rewrite Ep in V1.
    subst K. rewrite <- (input_terms_sum w groups cin cout W dY b xs ys b' ch q) in V1; [|destruct Hcnt as [Q' _]; rewrite <- Q'; apply lc_ys|reflexivity].
    rewrite input_terms_keys in V1. unfold W, dY in V1. rewrite !key_count in V1. now apply Nat2Z.inj in V1.
  Qed.

  (** The gradient of the input from what the halo layers' backward returns. *)
  Lemma lc_input {R : CRing} (M : machine R) (W dY : tensor R) (x dy : Z -> tensor R) shape recv send pre (back : Z -> tensor R) init eager gb :
    (forall i u, worker_at P i u -> tshape (x u) = block_shape L i) ->
    planned P Lp H shape recv send -> Forall (call_ok P Lp H) pre ->
    ends world (history_rounds_by P shape recv send (m_add M) (pre ++ [HBackward back])) init eager gb ->
    (forall idx v, worker_at P idx v -> tshape (back v) = padded_shape Lp H idx /\
       forall q, evaluates M (map (key_term W dY) (local_keys idx q)) (tat (back v) q)) ->
    exists dX, conv_input_gradient_by M w groups cin cout W dY b xs ys dX /\
      forall idx v, worker_at P idx v ->
        exists t, feature_gradient P w (fun u => tshape (x u)) dy (halo_result gb) v = Ok t /\ teq t (block L idx dX).
  Proof.
    intros Hx HPl Hpre He Hbk. assert (HH : halo_given world P Lp H) by exact (fg_given world P L w HG block_of block_of_spec).
    pose proof (lc_result M W dY shape recv send pre back init eager gb HH lc_narrow HPl Hpre He Hbk) as HR.
    set (T := fun idx => match feature_gradient P w (fun u => tshape (x u)) dy (halo_result gb) (wk P idx) with Ok t => t | Raise _ => tzeros [] end).
    assert (Gk : layout_workers L = p_shape P) by apply HG. assert (Go : layout_ok L) by apply HG.
    assert (HT : forall idx v, worker_at P idx v -> feature_gradient P w (fun u => tshape (x u)) dy (halo_result gb) v = Ok (T idx) /\
       tshape (T idx) = block_shape L idx /\ forall p, valid_index (block_shape L idx) p ->
         match vadd (block_lo L idx) p with
         | b' :: ch :: q => evaluates M (input_terms w groups cin cout W dY ys b' ch q) (tat (T idx) p) | _ => True end).
    { intros idx v Hv. destruct (HR idx v Hv) as [S1 V1]. destruct (lc_cropped idx v x dy (halo_result gb) Hv Hx S1) as (t & Et & St & Vt).
      assert (ET : T idx = t) by (unfold T; now rewrite (worker_wk _ _ _ Hv), Et). rewrite ET. split; [exact Et|]. split; [exact St|].
      intros p Hp. destruct (vadd (block_lo L idx) p) as [|b' [|ch q]] eqn:Ep; auto. destruct (Vt p Hp) as [Hq ->]. rewrite input_terms_keys.
      apply ev_order with (l := map (key_term W dY) (all_keys idx (place idx p))); [|now apply V1].
      apply Permutation_map. now apply (lc_keys idx p b' ch q (proj1 Hv) Hp). }
    destruct (assemble L T (fun g r => match g with b' :: ch :: q => evaluates M (input_terms w groups cin cout W dY ys b' ch q) r | _ => True end) Go)
      as (dX & A1 & A2 & A3).
    { intros idx Hi. rewrite Gk in Hi. apply (HT idx (wk P idx)). apply wk_worker; [exact lc_part|exact Hi]. }
    exists dX. split; [split; [congruence|]|].
    - intros b' ch q Hq. rewrite A1 in Hq. exact (A3 _ Hq).
    - intros idx v Hv. destruct (HT idx v Hv) as (E & _). exists (T idx). split; [exact E|]. apply A2. rewrite Gk. apply Hv.
  Qed.
End Local.

(** * The parameters *)

(** The entries of channel [c] of the outputs' gradient. *)
Definition outs (b : Z) (ys : list Z) (c : Z) : list (list Z) := flat_map (fun b' => map (fun o => b' :: c :: o) (indices ys)) (zrange b).

Lemma in_outs b ys c y : In y (outs b ys c) <-> exists b' o, y = b' :: c :: o /\ 0 <= b' < b /\ valid_index ys o.
Proof.
  unfold outs. rewrite in_flat_map. split.
  - intros (b' & Hb & H). apply in_map_iff in H as (o & <- & Ho). apply in_zrange in Hb. apply in_indices in Ho. eauto.
  - intros (b' & o & -> & Hb & Ho). exists b'. split; [now apply in_zrange|]. apply in_map_iff. exists o. split; [reflexivity|now apply in_indices].
Qed.
Lemma NoDup_outs b ys c : NoDup (outs b ys c).
Proof.
  apply NoDup_flat_map.
  - apply zrange_nodup.
  - intros b' _. apply FinFun.Injective_map_NoDup; [intros o o' E; now inversion E|apply indices_nodup].
  - intros a a' y _ _ H1 H2. apply in_map_iff in H1 as (o & <- & _). apply in_map_iff in H2 as (o' & E & _). now inversion E.
Qed.

Definition weight_term {R : CRing} (w : window) (groups cin cout : Z) (X dY : tensor R) (k : Z) (t y : list Z) : bool * term R :=
  match y with
  | b' :: c :: o =>
      let g := b' :: c / (cout / groups) * (cin / groups) + k :: window_at w o t in
      (negb (inside (tshape X) g), Prod (value_at X rzero g) (tat dY y))
  | _ => (false, Num rzero)
  end.

Lemma weight_terms_outs {R : CRing} w groups cin cout (X dY : tensor R) b ys c k t :
  weight_terms w groups cin cout X dY b ys c k t = map (weight_term w groups cin cout X dY k t) (outs b ys c).
Proof.
  unfold weight_terms, outs. induction (zrange b) as [|b' l IH]; [reflexivity|]. cbn [flat_map]. rewrite map_app, IH, map_map. reflexivity.
Qed.
Lemma bias_terms_outs {R : CRing} (dY : tensor R) b ys c : bias_terms dY b ys c = map (fun y => Num (tat dY y)) (outs b ys c).
Proof.
  unfold bias_terms, outs. induction (zrange b) as [|b' l IH]; [reflexivity|]. cbn [flat_map]. rewrite map_app, IH, map_map. reflexivity.
Qed.

Lemma channel_bound groups cin cout c k : 0 < groups -> (groups | cin) -> (groups | cout) -> 0 <= c < cout -> 0 <= k < cin / groups ->
  0 <= c / (cout / groups) * (cin / groups) + k < cin.
Proof.
  intros Hg [m ->] [n ->] Hc Hk. rewrite Z.div_mul in * by lia. rewrite Z.div_mul by lia.
  assert (0 < n) by nia. assert (0 <= c / n) by (apply Z.div_pos; lia). assert (c / n < groups) by (apply Z.div_lt_upper_bound; lia). nia.
Qed.

Lemma F2_same {A B C} (r : B -> C -> Prop) (f : A -> B) (g : A -> C) l : (forall a, In a l -> r (f a) (g a)) -> Forall2 r (map f l) (map g l).
Proof. induction l as [|a l IH]; intros H; cbn [map]; constructor; [apply H; now left|apply IH; intros; apply H; now right]. Qed.

Section Parameters.
  Variables (world : list Z) (P : part) (L : layout) (w : window) (groups cin cout : Z).
  Hypothesis HG : feature_given world P L w.
  Hypothesis H1 : nth 1 (p_shape P) 0 = 1.
  Variables (b : Z) (xs ys : list Z).
  Hypothesis EL : layout_shape L = b :: cin :: xs.
  Hypothesis Hcnt : counts xs w ys.
  Hypothesis Hb : 0 < b.
  Hypothesis Hcout : 0 < cout.
  Hypothesis Hys : Forall (fun n => 0 < n) ys.
  Let Ly := balanced (b :: cout :: ys) (p_shape P).
  Let nk := length (w_kernel w).
  Let rows := rows P b.
  Let extents := extents P w ys.

  Lemma pm_lo idx : valid_index (p_shape P) idx ->
    block_lo Ly idx = start1 (nth 0 (p_shape P) 0) (nth 0 idx 0) b :: 0 ::
      vec nk (fun k => start1 (nth (2 + k) (p_shape P) 0) (nth (2 + k) idx 0) (nth k ys 0)).
  Proof.
    intros Hi. assert (HP : part_ok P) by apply HG. pose proof (lc_ys world P L w cin HG b xs ys EL Hcnt) as Ls. pose proof (lc_dims world P L w HG) as Ld.
    assert (Hp : pos_shape (p_shape P)) by apply HP.
    unfold Ly. rewrite balanced_block_lo; [|exact Hp|rewrite Ld; cbn [length]; now rewrite Ls|exact Hi].
    pose proof H1 as E1. destruct (p_shape P) as [|n0 [|n1 ns]]; try discriminate Ld.
    apply valid_index_cons_inv in Hi as (i0 & i' & -> & Hi0 & Hi). apply valid_index_cons_inv in Hi as (i1 & is & -> & Hi1 & Hi).
    cbn [nth] in E1. subst n1. assert (i1 = 0) by lia. subst i1. unfold compute_start_index. cbn [map3 nth Nat.add]. f_equal. f_equal; [now rewrite start1_0|].
    apply valid_index_length in Hi. cbn [length] in Ld. assert (Ln : length ns = nk) by (unfold nk; lia).
    apply list_eq_nth with (d := 0); [rewrite vec_length, map3_length; lia|]. intros k Hk. rewrite map3_length in Hk by lia.
    rewrite vec_nth by lia. now rewrite map3_nth with (da := 0) (db := 0) (dc := 0) by lia.
  Qed.

  Lemma pm_outs c : 0 <= c < cout ->
    Permutation (flat_map (fun v => map (vadd (block_lo Ly (index_of P v))) (outs (rows (index_of P v)) (extents (index_of P v)) c)) (p_ranks P))
      (outs b ys c).
  Proof.
    intros Hc. assert (HP : part_ok P) by apply HG.
    destruct (lc_out world P L w cin cout HG b xs ys EL Hcnt Hb Hcout Hys) as (O1 & O2 & O3). fold Ly in O1, O2, O3.
    assert (Hm : forall v y, In v (p_ranks P) -> In y (map (vadd (block_lo Ly (index_of P v))) (outs (rows (index_of P v)) (extents (index_of P v)) c)) ->
      worker_at P (index_of P v) v /\ exists p, y = vadd (block_lo Ly (index_of P v)) p /\ valid_index (block_shape Ly (index_of P v)) p /\
        In p (outs (rows (index_of P v)) (extents (index_of P v)) c)).
    { intros v y Hv Hy. destruct (worker_at_exists P v HP Hv) as [i Hi]. rewrite (index_of_spec world P L w HG i v Hi) in *. split; [exact Hi|].
      apply in_map_iff in Hy as (p & <- & Hp). exists p. split; [reflexivity|]. split; [|exact Hp].
      unfold Ly. rewrite (lc_block world P L w cin cout HG H1 b xs ys EL Hcnt i (proj1 Hi)). apply in_outs in Hp as (b' & o & -> & B1 & B2).
      apply valid_index_cons. split; [exact B1|]. apply valid_index_cons. split; [exact Hc|exact B2]. }
    assert (Hlen : forall v p, worker_at P (index_of P v) v -> valid_index (block_shape Ly (index_of P v)) p -> length (block_lo Ly (index_of P v)) = length p).
    { intros v p [Hi _] Hp. apply valid_index_length in Hp. rewrite Hp. apply valid_index_length in Hi.
      rewrite block_shape_length; rewrite ?Hi, <- ?O2, ?layout_workers_length; auto.
      apply block_lo_length; rewrite ?Hi, <- ?O2, ?layout_workers_length; auto. }
    apply NoDup_Permutation; [|apply NoDup_outs|].
    - apply NoDup_flat_map; [apply HP| |].
      + intros v Hv. apply NoDup_map_inj; [|apply NoDup_outs]. intros p p' Hp Hp' E.
        destruct (Hm v (vadd (block_lo Ly (index_of P v)) p) Hv (in_map _ _ _ Hp)) as (Hi & _).
        assert (V : forall q, In q (outs (rows (index_of P v)) (extents (index_of P v)) c) -> length (block_lo Ly (index_of P v)) = length q).
        { intros q Hq. apply (Hlen v q Hi). unfold Ly. rewrite (lc_block world P L w cin cout HG H1 b xs ys EL Hcnt _ (proj1 Hi)).
          apply in_outs in Hq as (b' & o & -> & B1 & B2). apply valid_index_cons. split; [exact B1|]. apply valid_index_cons. split; [exact Hc|exact B2]. }
        exact (vadd_inj _ _ _ (V p Hp) (V p' Hp') E).
      + intros v v' y Hv Hv' Hy Hy'. destruct (Hm v y Hv Hy) as (Wv & p & -> & Vp & _). destruct (Hm v' _ Hv' Hy') as (Wv' & p' & E & Vp' & _).
        assert (index_of P v = index_of P v').
        { apply (layout_tiles_unique Ly (vadd (block_lo Ly (index_of P v)) p)); auto; rewrite ?O2; try apply Wv; try apply Wv'.
          - apply point_in_block; rewrite ?O2; auto. apply Wv.
          - rewrite E. apply point_in_block; rewrite ?O2; auto. apply Wv'. }
        rewrite <- (worker_wk _ _ _ Wv), <- (worker_wk _ _ _ Wv'). congruence.
    - intros y. rewrite in_flat_map. split.
      + intros (v & Hv & Hy). destruct (Hm v y Hv Hy) as (Wv & p & -> & Vp & Hp). apply in_outs in Hp as (b' & o & -> & _).
        assert (V : valid_index (b :: cout :: ys) (vadd (block_lo Ly (index_of P v)) (b' :: c :: o))).
        { apply bal_valid; auto; [constructor; [lia|]; constructor; [lia|]; eapply Forall_impl; [|exact Hys]; cbn; lia|rewrite (lc_dims world P L w HG); cbn [length]; now rewrite (lc_ys world P L w cin HG b xs ys EL Hcnt)|apply HP|apply Wv]. }
        rewrite (pm_lo _ (proj1 Wv)) in *. unfold vadd in *. cbn [map2] in *. apply valid_index_cons in V as [V1 V]. apply valid_index_cons in V as [V2 V].
        apply in_outs. eexists _, _. rewrite Z.add_0_l. split; [reflexivity|]. auto.
      + intros Hy. apply in_outs in Hy as (b' & o & -> & B1 & B2).
        assert (V : valid_index (layout_shape Ly) (b' :: c :: o)) by (rewrite O3; apply valid_index_cons; split; [exact B1|]; apply valid_index_cons; split; [exact Hc|exact B2]).
        destruct (layout_tiles_exists Ly _ O1 V) as (i & Hi & Hbox). destruct (local_point Ly i _ Hi Hbox) as [Vp Ep]. rewrite O2 in Hi.
        pose proof (wk_worker P i HP Hi) as Hw. exists (wk P i). split; [now apply wk_In|]. rewrite (index_of_spec world P L w HG i _ Hw).
        apply in_map_iff. exists (vsub (b' :: c :: o) (block_lo Ly i)). split; [exact Ep|].
        revert Vp Ep. generalize (vsub (b' :: c :: o) (block_lo Ly i)). intros p Vp Ep. unfold Ly in Vp.
        rewrite (lc_block world P L w cin cout HG H1 b xs ys EL Hcnt i Hi) in Vp.
        apply valid_index_cons_inv in Vp as (p0 & p' & -> & Hp0 & Vp). apply valid_index_cons_inv in Vp as (p1 & po & -> & Hp1 & Vp).
        rewrite (pm_lo i Hi) in Ep. unfold vadd in Ep. cbn [map2] in Ep. injection Ep as _ E _. assert (p1 = c) by lia. subst p1.
        apply in_outs. eauto.
  Qed.

  Context {R : CRing}.
  Variables (M : machine R) (X dY : tensor R).
  Hypothesis EX : tshape X = b :: cin :: xs.
  Hypothesis Hg : 0 < groups.
  Hypothesis Hgi : (groups | cin).
  Hypothesis Hgo : (groups | cout).

  (** The terms of the worker, in global coordinates. *)
  Lemma pm_weight idx (t g : tensor R) c k tt r : valid_index (p_shape P) idx -> 0 <= c < cout -> 0 <= k < cin / groups -> valid_index (w_kernel w) tt ->
    (forall b' ch o, 0 <= b' < rows idx -> 0 <= ch < cin -> valid_index (extents idx) o ->
       valid_index (tshape t) (b' :: ch :: window_point w o tt) /\
       tat t (b' :: ch :: window_point w o tt) = value_at X rzero (window_read P w b cin ys idx b' ch o tt)) ->
    teq g (block Ly idx dY) ->
    may_evaluate M (weight_terms (bare w) groups cin cout t g (rows idx) (extents idx) c k tt) r ->
    may_evaluate M (map (weight_term w groups cin cout X dY k tt) (map (vadd (block_lo Ly idx)) (outs (rows idx) (extents idx) c))) r.
  Proof.
    intros Hi Hc Hk Htt Hwin Hgt. rewrite weight_terms_outs. apply may_marks. rewrite map_map. apply F2_same. intros y Hy.
    apply in_outs in Hy as (b' & o & -> & Hb' & Ho). rewrite (pm_lo idx Hi). unfold vadd at 1 2. cbn [map2 weight_term].
    pose proof (valid_index_length _ _ Ho) as Lo. unfold extents, ProofFeatureReduce.extents in Lo. rewrite vec_length in Lo.
    pose proof (valid_index_length _ _ Htt) as Lt. assert (Hw : window_ok (length (w_kernel w)) w) by apply HG.
    pose proof (channel_bound groups cin cout c k Hg Hgi Hgo Hc Hk) as Hch. set (ch := c / (cout / groups) * (cin / groups) + k) in *.
    rewrite Z.add_0_l. fold ch. rewrite (bare_window w o tt Hw Lo Lt). destruct (Hwin b' ch o Hb' Hch Ho) as [V1 V2]. cbv zeta. cbn [fst snd].
    rewrite (proj2 (inside_spec _ _) V1). cbn [negb]. split; [|discriminate]. f_equal.
    - unfold value_at at 1. rewrite (proj2 (inside_spec _ _) V1), V2. unfold window_read. rewrite H1.
      assert (E1 : nth 1 idx 0 = 0).
      { apply valid_index_nth in Hi as [_ Hi]. specialize (Hi 1%nat ltac:(rewrite (lc_dims world P L w HG); lia)). rewrite H1 in Hi. lia. }
      rewrite E1, start1_0 by lia. rewrite Z.add_0_l. do 3 f_equal. unfold window_at. apply list_eq_nth with (d := 0); rewrite ?vec_length; auto.
      intros j Hj. rewrite !vec_nth by exact Hj. rewrite map2_nth with (da := 0) (db := 0) by (rewrite vec_length; auto). rewrite vec_nth by exact Hj. reflexivity.
    - destruct Hgt as [Sg Vg]. rewrite Vg.
      + cbn [block tat]. rewrite (pm_lo idx Hi). unfold vadd. cbn [map2]. now rewrite Z.add_0_l.
      + rewrite Sg. cbn [block tshape]. unfold Ly. rewrite (lc_block world P L w cin cout HG H1 b xs ys EL Hcnt idx Hi).
        apply valid_index_cons. split; [exact Hb'|]. apply valid_index_cons. split; [exact Hc|exact Ho].
  Qed.

  Lemma pm_bias idx (g : tensor R) c : valid_index (p_shape P) idx -> 0 <= c < cout -> teq g (block Ly idx dY) ->
    bias_terms g (rows idx) (extents idx) c = map (fun y => Num (tat dY y)) (map (vadd (block_lo Ly idx)) (outs (rows idx) (extents idx) c)).
  Proof.
    intros Hi Hc [Sg Vg]. rewrite bias_terms_outs, map_map. apply map_ext_in. intros y Hy. apply in_outs in Hy as (b' & o & -> & Hb' & Ho).
    rewrite Vg; [reflexivity|]. rewrite Sg. cbn [block tshape]. unfold Ly. rewrite (lc_block world P L w cin cout HG H1 b xs ys EL Hcnt idx Hi).
    apply valid_index_cons. split; [exact Hb'|]. apply valid_index_cons. split; [exact Hc|exact Ho].
  Qed.

  (** The sums over the workers. *)
  Lemma pm_weight_sum (grads : Z -> R) c k tt r : 0 <= c < cout ->
    (forall v idx, worker_at P idx v ->
       may_evaluate M (map (weight_term w groups cin cout X dY k tt) (map (vadd (block_lo Ly idx)) (outs (rows idx) (extents idx) c))) (grads v)) ->
    evaluates M (map (fun v => Num (grads v)) (p_ranks P)) r -> may_evaluate M (weight_terms w groups cin cout X dY b ys c k tt) r.
  Proof.
    intros Hc Hv Hr. assert (HP : part_ok P) by apply HG. rewrite weight_terms_outs.
    apply (may_perm M (map (weight_term w groups cin cout X dY k tt)
      (flat_map (fun v => map (vadd (block_lo Ly (index_of P v))) (outs (rows (index_of P v)) (extents (index_of P v)) c)) (p_ranks P)))).
    { apply Permutation_map. now apply pm_outs. }
    rewrite ProofInterpolate.map_flat_map. apply (may_parts M (p_ranks P) _ grads); [|exact Hr].
    intros v Hin. destruct (worker_at_exists P v HP Hin) as [i Hi]. rewrite (index_of_spec world P L w HG i v Hi). now apply Hv.
  Qed.

  Lemma pm_bias_sum (grads : Z -> R) c r : 0 <= c < cout ->
    (forall v idx, worker_at P idx v ->
       evaluates M (map (fun y => Num (tat dY y)) (map (vadd (block_lo Ly idx)) (outs (rows idx) (extents idx) c))) (grads v)) ->
    evaluates M (map (fun v => Num (grads v)) (p_ranks P)) r -> evaluates M (bias_terms dY b ys c) r.
  Proof.
    intros Hc Hv Hr. assert (HP : part_ok P) by apply HG. rewrite bias_terms_outs.
    eapply ev_order; [apply Permutation_map, (pm_outs c Hc)|]. rewrite ProofInterpolate.map_flat_map.
    pose proof (evaluates_concat M (map (fun v => (map (fun y => Num (tat dY y)) (map (vadd (block_lo Ly (index_of P v)))
      (outs (rows (index_of P v)) (extents (index_of P v)) c)), grads v)) (p_ranks P)) r) as EC.
    rewrite !map_map in EC. cbn [fst snd] in EC. rewrite flat_map_concat_map. apply EC; [|exact Hr].
    intros p Hp. apply in_map_iff in Hp as (v & <- & Hin). cbn [fst snd]. destruct (worker_at_exists P v HP Hin) as [i Hi].
    rewrite (index_of_spec world P L w HG i v Hi). now apply Hv.
  Qed.
End Parameters.
