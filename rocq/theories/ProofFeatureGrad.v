(** The gradients of sliding-window layers are the adjoints. *)

From Verif Require Import Prelude SpecIndex SpecLayout SpecPartition SpecHalo Ring Tensor ModelSlicing ModelPartition ProofSlicing ProofDecomposition
  ProofPartition ModelUtilities PropUtilities ModelRepartition ProofTransfer ModelHaloMixin ProofHaloMixin PropHaloMixin
  Blocks ModelHaloExchange SpecFeature ModelFeatureLayer ProofFeatureLayer ModelGradients ProofGradients ModelFeatureGrad SpecFeatureGrad.
Local Open Scope Z_scope.

Section Adjoint.
  Context {R : CRing}.
  Add Ring R_slide : (rth R).

  Lemma sum_cons (n : Z) (sh : list Z) (F : list Z -> R) :
    sumf (indices (n :: sh)) F = sumf (zrange n) (fun a => sumf (indices sh) (fun i => F (a :: i))).
  Proof. cbn [indices]. rewrite sumf_flat_map. apply sumf_ext. intros a _. apply sumf_map. Qed.

  Lemma pick_mul (c : bool) (a b : R) : rmul (if c then a else rzero) b = if c then rmul a b else rzero.
  Proof. destruct c; [reflexivity|ring]. Qed.

  (** The exchange of the sums. [V] is what the layer reads, [X] the input. *)
  Lemma window_exchange (K : Z -> Z -> list Z -> R) (pt : list Z -> list Z -> list Z) (eqp : list Z -> list Z -> list Z -> bool)
      (b c cy : Z) (xs ys ks : list Z) (V X dY : list Z -> R) :
    (forall b' ch o t, 0 <= b' < b -> 0 <= ch < c -> valid_index ys o -> valid_index ks t ->
       V (b' :: ch :: pt o t) = sumf (indices xs) (fun q => if eqp o t q then X (b' :: ch :: q) else rzero)) ->
    sumf (indices (b :: cy :: ys)) (fun i =>
      rmul (match i with
            | b' :: c' :: o => sumf (zrange c) (fun ch => sumf (indices ks) (fun t => rmul (K c' ch t) (V (b' :: ch :: pt o t))))
            | _ => rzero
            end) (dY i)) =
    sumf (indices (b :: c :: xs)) (fun i =>
      rmul (X i)
           (match i with
            | b' :: ch :: q =>
                sumf (zrange cy) (fun c' => sumf (indices ys) (fun o => sumf (indices ks) (fun t =>
                  if eqp o t q then rmul (K c' ch t) (dY (b' :: c' :: o)) else rzero)))
            | _ => rzero
            end)).
  Proof.
    intros HV. rewrite (sum_cons b (cy :: ys)), (sum_cons b (c :: xs)). apply sumf_ext. intros b' Hb. apply in_zrange in Hb.
    rewrite !sum_cons.
    (* left: c', o, ch, t, q *)
    transitivity (sumf (zrange cy) (fun c' => sumf (indices ys) (fun o => sumf (zrange c) (fun ch => sumf (indices ks) (fun t =>
      sumf (indices xs) (fun q => if eqp o t q then rmul (X (b' :: ch :: q)) (rmul (K c' ch t) (dY (b' :: c' :: o))) else rzero)))))).
    - apply sumf_ext. intros c' Hc'. apply sumf_ext. intros o Ho. apply in_indices in Ho. rewrite <- sumf_mul_r. apply sumf_ext.
      intros ch Hch. apply in_zrange in Hch. rewrite <- sumf_mul_r. apply sumf_ext. intros t Ht. apply in_indices in Ht.
      rewrite HV by auto.
      transitivity (rmul (sumf (indices xs) (fun q => if eqp o t q then X (b' :: ch :: q) else rzero)) (rmul (K c' ch t) (dY (b' :: c' :: o)))); [ring|].
      rewrite <- sumf_mul_r. apply sumf_ext. intros q _. apply pick_mul.
    - symmetry.
      transitivity (sumf (zrange c) (fun ch => sumf (zrange cy) (fun c' => sumf (indices ys) (fun o => sumf (indices ks) (fun t =>
        sumf (indices xs) (fun q => if eqp o t q then rmul (X (b' :: ch :: q)) (rmul (K c' ch t) (dY (b' :: c' :: o))) else rzero)))))).
      + apply sumf_ext. intros ch _.
        transitivity (sumf (indices xs) (fun q => sumf (zrange cy) (fun c' => sumf (indices ys) (fun o => sumf (indices ks) (fun t =>
          if eqp o t q then rmul (X (b' :: ch :: q)) (rmul (K c' ch t) (dY (b' :: c' :: o))) else rzero))))).
        * apply sumf_ext. intros q _. rewrite <- sumf_mul_l. apply sumf_ext. intros c' _. rewrite <- sumf_mul_l. apply sumf_ext.
          intros o _. rewrite <- sumf_mul_l. apply sumf_ext. intros t _. destruct (eqp o t q); [reflexivity|ring].
        * rewrite sumf_exchange. apply sumf_ext. intros c' _. rewrite sumf_exchange. apply sumf_ext. intros o _.
          apply sumf_exchange.
      + rewrite sumf_exchange. apply sumf_ext. intros c' _. rewrite sumf_exchange. apply sumf_ext. intros o _. reflexivity.
  Qed.

  Lemma pick_point (xs p : list Z) (X : list Z -> R) (eqp : list Z -> bool) :
    (forall q, eqp q = true <-> p = q) -> valid_index xs p -> X p = sumf (indices xs) (fun q => if eqp q then X q else rzero).
  Proof.
    intros He Hp. rewrite (sumf_single _ _ p).
    - now rewrite (proj2 (He p)).
    - apply indices_nodup.
    - now apply in_indices.
    - intros q _ Hq. destruct (eqp q) eqn:E; auto. apply He in E. congruence.
  Qed.

  Lemma no_point (xs p : list Z) (X : list Z -> R) (eqp : list Z -> bool) :
    (forall q, eqp q = true <-> p = q) -> ~ valid_index xs p -> rzero = sumf (indices xs) (fun q => if eqp q then X q else rzero).
  Proof.
    intros He Hp. symmetry. apply sumf_zero. intros q Hq. destruct (eqp q) eqn:E; auto. apply He in E. subst q. now apply in_indices in Hq.
  Qed.

  (** ** torch's layer without padding *)

  Lemma window_point_length w o t : window_ok (nf w) w -> length o = nf w -> length t = nf w -> length (window_point w o t) = nf w.
  Proof.
    intros (W1 & W2 & W3 & W4 & _) Lo Lt. unfold window_point, vadd. rewrite !map2_length; rewrite ?map2_length; lia.
  Qed.
  Lemma window_point_nth w o t j : window_ok (nf w) w -> length o = nf w -> length t = nf w -> (j < nf w)%nat ->
    nth j (window_point w o t) 0 = nth j (w_stride w) 0 * nth j o 0 + nth j (w_dilation w) 0 * nth j t 0.
  Proof.
    intros (W1 & W2 & W3 & W4 & _) Lo Lt Hj. unfold window_point, vadd.
    rewrite map2_nth with (da := 0) (db := 0); rewrite ?map2_length; try lia.
    rewrite !map2_nth with (da := 0) (db := 0); try lia.
  Qed.

  Definition plain_out (w : window) (xs : list Z) : list Z :=
    compute_out_shape xs (mkwindow (w_kernel w) (w_stride w) (repeat 0 (length xs)) (w_dilation w)).

  Lemma plain_out_length w xs : length (plain_out w xs) = length xs.
  Proof. apply vec_length. Qed.
  Lemma plain_out_nth w xs j : (j < length xs)%nat ->
    nth j (plain_out w xs) 0 = out_extent (nth j xs 0) (nth j (w_kernel w) 0) (nth j (w_stride w) 0) 0 (nth j (w_dilation w) 0).
  Proof.
    intros Hj. unfold plain_out, compute_out_shape. rewrite vec_nth by auto. cbn [w_kernel w_stride w_padding w_dilation].
    f_equal. destruct (nth_in_or_default j (repeat 0 (length xs)) 0) as [Hr|Hr]; auto. now apply repeat_spec in Hr.
  Qed.

  (** A window reads inside the input. *)
  Lemma window_inside w xs o t : window_ok (nf w) w -> length xs = nf w ->
    valid_index (plain_out w xs) o -> valid_index (w_kernel w) t -> valid_index xs (window_point w o t).
  Proof.
    intros Hw Lx Ho Ht. apply valid_index_nth in Ho as [Lo Ho]. apply valid_index_nth in Ht as [Lt Ht].
    rewrite plain_out_length in Lo, Ho. fold (nf w) in Lt, Ht.
    apply valid_index_nth. rewrite window_point_length by (auto; lia). split; auto. intros j Hj.
    rewrite window_point_nth by (auto; lia). specialize (Ho j Hj). rewrite plain_out_nth in Ho by auto. specialize (Ht j ltac:(lia)).
    destruct (window_nth _ _ j Hw ltac:(lia)) as (A & B & _ & D). unfold out_extent in Ho.
    set (k := nth j (w_kernel w) 0) in *. set (s := nth j (w_stride w) 0) in *. set (d := nth j (w_dilation w) 0) in *.
    set (a := nth j o 0) in *. set (b := nth j t 0) in *. set (n := nth j xs 0) in *.
    assert (s * ((n + 2 * 0 - d * (k - 1) - 1) / s) <= n + 2 * 0 - d * (k - 1) - 1) by (apply Z.mul_div_le; lia).
    assert (s * a <= s * ((n + 2 * 0 - d * (k - 1) - 1) / s)) by (apply Z.mul_le_mono_nonneg_l; lia).
    assert (d * b <= d * (k - 1)) by (apply Z.mul_le_mono_nonneg_l; lia).
    assert (0 <= s * a) by (apply Z.mul_nonneg_nonneg; lia). assert (0 <= d * b) by (apply Z.mul_nonneg_nonneg; lia). lia.
  Qed.

  Lemma sliding_shape f cout w (t y : tensor R) : torch_sliding f cout w t = Ok y ->
    exists b c xs, tshape t = b :: c :: xs /\ tshape y = b :: cout c :: plain_out w xs /\
      forall b' c' o, tat y (b' :: c' :: o) = f c c' (fun ch t' => tat t (b' :: ch :: window_point w o t')).
  Proof.
    unfold torch_sliding. destruct (tshape t) as [|b [|c xs]]; try discriminate. fold (plain_out w xs).
    destruct (forallb _ _); [|discriminate]. intros E. injection E as <-. exists b, c, xs. auto.
  Qed.

  Lemma sliding_adjoint K f cout w (t y dy : tensor R) :
    linear_kernel w f cout K -> window_ok (nf w) w -> length (tshape t) = S (S (nf w)) ->
    torch_sliding f cout w t = Ok y -> tshape dy = tshape y ->
    inner y dy = inner t (sliding_backward K w (tshape t) dy).
  Proof.
    intros HK Hw Hl Hy Hd. destruct (sliding_shape _ _ _ _ _ Hy) as (b & c & xs & Et & Ey & Vy).
    rewrite Et in Hl. cbn [length] in Hl.
    unfold inner, sliding_backward. rewrite Et, Ey. cbn [tat]. rewrite Hd, Ey. cbn [nth skipn].
    rewrite <- (window_exchange (K c) (window_point w) (fun o t q => zlist_eqb (window_point w o t) q) b c (cout c) xs (plain_out w xs) (w_kernel w) (tat t) (tat t) (tat dy)).
    - apply sumf_ext. intros i Hi. apply in_indices in Hi. destruct i as [|b' [|c' o]]; [inversion Hi|inversion Hi as [|? ? ? ? ? Hi']; inversion Hi'|].
      f_equal. rewrite Vy. apply HK. apply valid_index_cons in Hi as [_ Hi]. now apply valid_index_cons in Hi as [Hi _].
    - intros b' ch o t' Hb Hc Ho Ht. apply (pick_point xs (window_point w o t') (fun q => tat t (b' :: ch :: q))).
      + intros q. apply zlist_eqb_eq.
      + apply window_inside; auto. lia.
  Qed.

  (** ** The sequential layer *)

  Lemma seen_out n w o t : length (seen_point n w o t) = n.
  Proof. apply vec_length. Qed.

  Lemma sequential_adjoint K f cout w (G Y dY : tensor R) :
    linear_kernel w f cout K -> is_sequential f cout rzero w G Y -> tshape dY = tshape Y ->
    inner Y dY = inner G (input_gradient K w (tshape G) dY).
  Proof.
    intros HK (b & c & xs & ys & EG & EY & _ & _ & _ & _ & HY) Hd.
    unfold inner, input_gradient. rewrite EG, EY. cbn [tat]. rewrite Hd, EY. cbn [nth skipn].
    transitivity (sumf (indices (b :: cout c :: ys)) (fun i =>
      rmul (match i with
            | b' :: c' :: o => sumf (zrange c) (fun ch => sumf (indices (w_kernel w)) (fun t =>
                rmul (K c c' ch t) (value_at G rzero (b' :: ch :: seen_point (length xs) w o t))))
            | _ => rzero
            end) (tat dY i))).
    - apply sumf_ext. intros i Hi. apply in_indices in Hi. destruct i as [|b' [|c' o]]; [inversion Hi|inversion Hi as [|? ? ? ? ? Hi']; inversion Hi'|].
      f_equal. rewrite HY by (now rewrite EY). apply HK. apply valid_index_cons in Hi as [_ Hi]. now apply valid_index_cons in Hi as [Hi _].
    - rewrite (window_exchange (K c) (seen_point (length xs) w)
                 (fun o t q => if list_eq_dec Z.eq_dec (seen_point (length xs) w o t) q then true else false)
                 b c (cout c) xs ys (w_kernel w) (value_at G rzero) (tat G) (tat dY)).
      + apply sumf_ext. intros i Hi. f_equal. destruct i as [|b' [|ch q]]; auto. apply sumf_ext. intros c' _. apply sumf_ext. intros o _.
        apply sumf_ext. intros t _. now destruct (list_eq_dec _ _ _).
      + intros b' ch o t Hb Hc Ho Ht. unfold value_at.
        assert (He : forall q, (if list_eq_dec Z.eq_dec (seen_point (length xs) w o t) q then true else false) = true <-> seen_point (length xs) w o t = q).
        { intros q. destruct (list_eq_dec _ _ _); intuition discriminate. }
        destruct (inside (tshape G) (b' :: ch :: seen_point (length xs) w o t)) eqn:Ei.
        * apply (pick_point xs _ (fun q => tat G (b' :: ch :: q))); auto.
          apply inside_spec in Ei. rewrite EG in Ei. apply valid_index_cons in Ei as [_ Ei]. now apply valid_index_cons in Ei as [_ Ei].
        * apply (no_point xs (seen_point (length xs) w o t)); auto. intros Hn.
          assert (inside (tshape G) (b' :: ch :: seen_point (length xs) w o t) = true); [|congruence].
          apply inside_spec. rewrite EG. apply valid_index_cons. split; auto. apply valid_index_cons. split; auto.
  Qed.

  (** ** A tensor with a single one *)
  Definition unit_at (shape p : list Z) : tensor R :=
    mkt shape (fun i => if zlist_eqb p i then rone else rzero).

  Lemma unit_inner shape p (t : tensor R) : valid_index shape p -> inner (unit_at shape p) t = tat t p.
  Proof.
    intros Hp. unfold inner, unit_at. cbn [tshape tat]. rewrite (sumf_single _ _ p).
    - rewrite (proj2 (zlist_eqb_eq p p)) by auto. ring.
    - apply indices_nodup.
    - now apply in_indices.
    - intros j _ Hj. destruct (zlist_eqb p j) eqn:E; [apply zlist_eqb_eq in E; congruence|ring].
  Qed.
End Adjoint.
