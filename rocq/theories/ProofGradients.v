(** The gradients of slicing and padding are the adjoints. *)

From Verif Require Import Prelude SpecIndex SpecLayout SpecPartition SpecHalo Ring Tensor ModelSlicing ModelPartition ProofSlicing ProofDecomposition
  ProofPartition ModelUtilities PropUtilities ModelRepartition ProofTransfer ProofHaloMixin
  Blocks ModelHaloMixin ModelHaloExchange SpecFeature ModelFeatureLayer ProofFeatureLayer ModelGradients.
Local Open Scope Z_scope.

Section Windows.
  Context {R : CRing}.
  Add Ring R_win : (rth R).

  Lemma vadd_nth a b j : length a = length b -> (j < length a)%nat -> nth j (vadd a b) 0 = nth j a 0 + nth j b 0.
  Proof. intros E Hj. unfold vadd. now rewrite map2_nth with (da := 0) (db := 0) by lia. Qed.

  Lemma vadd_len a b : length a = length b -> length (vadd a b) = length a.
  Proof. intros E. unfold vadd. now rewrite map2_length by lia. Qed.

  Lemma fst_nth (l : list (Z * Z)) j : nth j (map fst l) 0 = fst (nth j l (0, 0)).
  Proof. exact (map_nth fst l (0, 0) j). Qed.

  Lemma slice_shape_nth (sl : list (Z * Z)) j : (j < length sl)%nat ->
    nth j (compute_nd_slice_shape sl) 0 = snd (nth j sl (0, 0)) - fst (nth j sl (0, 0)).
  Proof.
    intros Hj. unfold compute_nd_slice_shape. rewrite (nth_indep _ 0 ((fun s : Z * Z => snd s - fst s) (0, 0))) by (rewrite ?map_length; lia).
    apply (map_nth (fun s : Z * Z => snd s - fst s)).
  Qed.

  Lemma slice_shape_len (sl : list (Z * Z)) : length (compute_nd_slice_shape sl) = length sl.
  Proof. apply map_length. Qed.

  (** A sum over a tensor that vanishes outside a window. *)
  Lemma window_sum (lo sh S : list Z) (f : list Z -> R) :
    length lo = length S -> length sh = length S ->
    (forall j, (j < length S)%nat -> 0 <= nth j lo 0 /\ nth j lo 0 + nth j sh 0 <= nth j S 0) ->
    (forall i, valid_index S i -> (exists p, valid_index sh p /\ i = vadd lo p) \/ f i = rzero) ->
    sumf (indices S) f = sumf (indices sh) (fun p => f (vadd lo p)).
  Proof.
    intros L1 L2 Hin Hf.
    assert (HV : forall p, valid_index sh p -> valid_index S (vadd lo p)).
    { intros p Hp. pose proof (valid_index_length _ _ Hp) as Lp. apply valid_index_nth. rewrite vadd_len by lia. split; [lia|].
      intros j Hj. rewrite vadd_nth by lia. apply valid_index_nth in Hp as [_ Hp]. specialize (Hp j ltac:(lia)).
      destruct (Hin j Hj). lia. }
    set (W := map (vadd lo) (indices sh)).
    set (inw := fun i : list Z => if in_dec (list_eq_dec Z.eq_dec) i W then true else false).
    transitivity (sumf (filter inw (indices S)) f).
    - rewrite sumf_filter. apply sumf_ext. intros i Hi. unfold inw. destruct (in_dec _ i W) as [Y|N]; auto.
      apply in_indices in Hi. destruct (Hf i Hi) as [(p & Hp & ->)|E]; auto. exfalso. apply N. apply in_map. now apply in_indices.
    - apply sumf_reindex.
      + apply indices_nodup.
      + apply NoDup_filter, indices_nodup.
      + intros p Hp. apply filter_In. split; [apply in_indices, HV; now apply in_indices|].
        unfold inw. destruct (in_dec _ (vadd lo p) W) as [Y|N]; auto. exfalso. apply N. now apply in_map.
      + intros p q Hp Hq E. apply in_indices in Hp, Hq. apply valid_index_length in Hp, Hq.
        apply list_eq_nth with (d := 0); [congruence|]. intros j Hj.
        assert (E' : nth j (vadd lo p) 0 = nth j (vadd lo q) 0) by now rewrite E. rewrite !vadd_nth in E' by lia. lia.
      + intros i Hi. apply filter_In in Hi as [_ Hi]. unfold inw in Hi. destruct (in_dec _ i W) as [Y|N]; [|discriminate].
        unfold W in Y. apply in_map_iff in Y as (p & <- & Hp). eauto.
  Qed.

  Lemma in_slice_window (sl : list (Z * Z)) i : in_slice sl i = true <-> exists p, valid_index (compute_nd_slice_shape sl) p /\ i = vadd (map fst sl) p.
  Proof.
    split.
    - intros H. unfold in_slice in H. apply andb_true_iff in H as [H0 H1]. apply Nat.eqb_eq in H0.
      change (@length slice sl) with (@length (Z * Z) sl) in H0. rewrite forallb_forall in H1.
      exists (map2 (fun s k => k - fst s) sl i). split.
      + apply valid_index_nth. rewrite map2_length, slice_shape_len by lia. split; auto.
        intros j Hj. rewrite map2_nth with (da := (0, 0)) (db := 0) by lia. rewrite slice_shape_nth by lia.
        assert (Hc : In (nth j sl (0, 0), nth j i 0) (combine sl i)).
        { rewrite <- combine_nth by auto. apply nth_In. rewrite combine_length. lia. }
        specialize (H1 _ Hc). cbn [fst snd] in H1. apply andb_true_iff in H1 as [A B]. apply Z.leb_le in A. apply Z.ltb_lt in B. lia.
      + apply list_eq_nth with (d := 0); [rewrite vadd_len; rewrite map_length, ?map2_length; lia|]. intros j Hj.
        rewrite vadd_nth by (rewrite map_length, ?map2_length; lia). rewrite map2_nth with (da := (0, 0)) (db := 0) by lia.
        rewrite fst_nth. lia.
    - intros (p & Hp & ->). pose proof (valid_index_length _ _ Hp) as Lp. rewrite slice_shape_len in Lp.
      assert (Lv : length (vadd (map fst sl) p) = length sl) by (rewrite vadd_len; rewrite map_length; lia).
      unfold in_slice. rewrite Lv. change (@length slice sl) with (@length (Z * Z) sl). rewrite Nat.eqb_refl. cbn [andb].
      apply forallb_forall. intros sk Hsk. apply In_nth with (d := ((0, 0), 0)) in Hsk as (j & Hj & E).
      rewrite combine_length in Hj. change (@length slice sl) with (@length (Z * Z) sl) in Hj.
      rewrite combine_nth in E by (symmetry; exact Lv). subst sk. cbn [fst snd].
      rewrite vadd_nth by (rewrite ?map_length; lia). rewrite fst_nth.
      apply valid_index_nth in Hp as [_ Hp]. rewrite slice_shape_len in Hp. specialize (Hp j ltac:(lia)). rewrite slice_shape_nth in Hp by lia.
      apply andb_true_iff. split; [apply Z.leb_le|apply Z.ltb_lt]; lia.
  Qed.

  Lemma slice_adjoint (t d : tensor R) (sl : list (Z * Z)) :
    length sl = length (tshape t) ->
    (forall j, (j < length sl)%nat -> 0 <= fst (nth j sl (0, 0)) /\ snd (nth j sl (0, 0)) <= nth j (tshape t) 0) ->
    tshape d = compute_nd_slice_shape sl ->
    tshape (slice_backward (tshape t) sl d) = tshape t /\
    inner (read_slice t sl) d = inner t (slice_backward (tshape t) sl d).
  Proof.
    intros L1 Hs Sd. unfold slice_backward, write_slice. rewrite Sd, zlist_eqb_refl. split; [reflexivity|].
    unfold inner. cbn [tshape tat read_slice tzeros].
    rewrite (window_sum (map fst sl) (compute_nd_slice_shape sl) (tshape t)).
    - apply sumf_ext. intros p Hp. apply in_indices in Hp. pose proof (valid_index_length _ _ Hp) as Lp. rewrite slice_shape_len in Lp.
      assert (Ep : map2 (fun (s : Z * Z) k => fst s + k) sl p = vadd (map fst sl) p).
      { clear - Lp. revert p Lp. induction sl as [|s sl IH]; intros [|k p] Lp; try discriminate; auto. unfold vadd in *. cbn [map map2]. f_equal. apply IH. now injection Lp. }
      rewrite Ep. rewrite (proj2 (in_slice_window sl (vadd (map fst sl) p))) by eauto. f_equal. f_equal.
      apply list_eq_nth with (d := 0); [rewrite map2_length; rewrite ?vadd_len; rewrite ?map_length; lia|]. intros j Hj.
      rewrite map2_nth with (da := (0, 0)) (db := 0) by (rewrite ?vadd_len; rewrite ?map_length; lia).
      rewrite vadd_nth by (rewrite ?map_length; lia). rewrite fst_nth. lia.
    - rewrite map_length. lia.
    - rewrite slice_shape_len. lia.
    - intros j Hj. rewrite slice_shape_nth, fst_nth by lia. destruct (Hs j ltac:(lia)). lia.
    - intros i Hi. destruct (in_slice sl i) eqn:E; [left; now apply in_slice_window|right]. ring.
  Qed.

  Lemma opp_padding total : map Z.opp (distdl_padding_to_torch_padding total) =
    distdl_padding_to_torch_padding (map (fun p => (- fst p, - snd p)) total).
  Proof.
    unfold distdl_padding_to_torch_padding. rewrite <- map_rev. induction (rev total) as [|p l IH]; auto. cbn [flat_map map app fst snd]. now rewrite IH.
  Qed.

  Lemma pad_adjoint (total : list (Z * Z)) (x e : tensor R) :
    length total = length (tshape x) -> Forall (fun p => 0 <= fst p /\ 0 <= snd p) total ->
    tshape e = map2 (fun n p => n + fst p + snd p) (tshape x) total ->
    exists t dx,
      (if zsum (map (fun p => fst p + snd p) total) =? 0 then Ok x
       else match f_pad rzero (distdl_padding_to_torch_padding total) (length (tshape x)) x with
            | Some t => Ok t
            | None => Raise ErrTorch
            end) = Ok t /\
      pad_backward total e = Ok dx /\ tshape dx = tshape x /\ inner t e = inner x dx.
  Proof.
    intros Hl Hn Se. unfold pad_backward.
    destruct (Z.eqb_spec (zsum (map (fun p => fst p + snd p) total)) 0) as [E|E].
    - exists x, e. split; auto. split; auto. split; auto. rewrite Se.
      assert (Z0 : forall l, Forall (fun p : Z * Z => 0 <= fst p /\ 0 <= snd p) l -> 0 <= zsum (map (fun p => fst p + snd p) l)).
      { intros l F. induction F as [|p l Hp F IH]; cbn [map zsum fold_right] in *; [lia|]. fold (zsum (map (fun p : Z * Z => fst p + snd p) l)) in *. lia. }
      clear Se e. revert Hl Hn E. generalize (tshape x). induction total as [|p l IH]; intros [|n sh] Hl Hn E; try discriminate; auto.
      inversion Hn as [|? ? Hp Hn']; subst. pose proof (Z0 l Hn'). cbn [map zsum fold_right] in E. fold (zsum (map (fun p : Z * Z => fst p + snd p) l)) in E.
      cbn [map2]. f_equal; [lia|]. apply IH; auto. lia.
    - destruct (C42_proof R rzero total x Hl) as (t & E1 & E2 & E3). rewrite E1.
      assert (Le : length (tshape e) = length total) by (rewrite Se, map2_length; lia).
      rewrite opp_padding.
      destruct (C42_proof R rzero (map (fun p => (- fst p, - snd p)) total) e) as (dx & F1 & F2 & F3); [rewrite map_length; lia|].
      rewrite F1. exists t, dx. split; auto. split; auto.
      assert (Sx : tshape dx = tshape x).
      { rewrite F2, Se. clear - Hl. revert Hl. generalize (tshape x). induction total as [|p l IH]; intros [|n sh] Hl; try discriminate; auto.
        cbn [map map2 fst snd]. f_equal; [lia|]. apply IH. now injection Hl. }
      split; auto. unfold inner. rewrite E2.
      rewrite (window_sum (map fst total) (tshape x)).
      + apply sumf_ext. intros p Hp. apply in_indices in Hp. pose proof (valid_index_length _ _ Hp) as Lp.
        assert (Lv : length (vadd (map fst total) p) = length total) by (rewrite vadd_len; rewrite map_length; lia).
        rewrite E3 by lia. rewrite F3 by (rewrite ?map_length; lia). cbn [padded tat].
        assert (Eq : map2 (fun (k : Z) (q : Z * Z) => k - fst q) (vadd (map fst total) p) total = p).
        { apply list_eq_nth with (d := 0); [rewrite map2_length; lia|]. intros j Hj. rewrite map2_length in Hj by lia.
          rewrite map2_nth with (da := 0) (db := (0, 0)) by lia. rewrite vadd_nth by (rewrite ?map_length; lia).
          rewrite fst_nth. lia. }
        assert (Eq' : map2 (fun (k : Z) (q : Z * Z) => k - fst q) p (map (fun p => (- fst p, - snd p)) total) = vadd (map fst total) p).
        { apply list_eq_nth with (d := 0); [rewrite map2_length; rewrite ?map_length; lia|]. intros j Hj. rewrite map2_length in Hj by (rewrite ?map_length; lia).
          rewrite map2_nth with (da := 0) (db := (0, 0)) by (rewrite ?map_length; lia). rewrite vadd_nth by (rewrite ?map_length; lia).
          rewrite (map_nth (fun p : Z * Z => (- fst p, - snd p)) total (0, 0) j : nth j _ (0, 0) = _).
          rewrite fst_nth. cbn [fst]. lia. }
        rewrite Eq, Eq', !padded_test by lia. rewrite (proj2 (inside_spec (tshape x) p)) by auto.
        rewrite (proj2 (inside_spec (tshape e) (vadd (map fst total) p))); auto.
        apply valid_index_nth. split; [lia|]. intros j Hj. rewrite Se, map2_length in Hj by lia. rewrite Se.
        rewrite map2_nth with (da := 0) (db := (0, 0)) by lia. rewrite vadd_nth by (rewrite ?map_length; lia).
        rewrite fst_nth. apply valid_index_nth in Hp as [_ Hp]. specialize (Hp j Hj).
        rewrite Forall_forall in Hn. pose proof (Hn (nth j total (0, 0)) ltac:(apply nth_In; lia)). cbn [fst]. lia.
      + rewrite map_length, map2_length; lia.
      + rewrite map2_length; lia.
      + intros j Hj. rewrite map2_length in Hj by lia. rewrite map2_nth with (da := 0) (db := (0, 0)) by lia.
        rewrite fst_nth.
        rewrite Forall_forall in Hn. pose proof (Hn (nth j total (0, 0)) ltac:(apply nth_In; lia)). cbn [fst]. lia.
      + intros i Hi. pose proof (valid_index_length _ _ Hi) as Li. rewrite map2_length in Li by lia. rewrite E3 by lia. cbn [padded tat].
        set (q := map2 (fun (k : Z) (q : Z * Z) => k - fst q) i total).
        assert (Lq : length q = length i) by (unfold q; rewrite map2_length; lia).
        rewrite padded_test by lia. destruct (inside (tshape x) q) eqn:Ei; [left|right; ring].
        apply inside_spec in Ei. exists q. split; auto. apply list_eq_nth with (d := 0); [rewrite vadd_len; rewrite map_length; lia|].
        intros j Hj. rewrite vadd_nth by (rewrite ?map_length; lia). unfold q. rewrite map2_nth with (da := 0) (db := (0, 0)) by lia.
        rewrite fst_nth. lia.
  Qed.
End Windows.
