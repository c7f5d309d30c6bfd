(** Proofs about padding modes. *)

From Verif Require Import Prelude SpecIndex SpecLayout SpecPartition SpecHalo ModelSlicing ModelDecomposition
  ModelPartition ProofSlicing ProofDecomposition ProofPartition Ring Tensor ModelCollectives PropCollectives PropExchange
  ModelUtilities PropUtilities Blocks P2P Rounds ModelRepartition ProofTransfer PropRepartition ModelHaloMixin ProofHaloMixin
  PropHaloMixin ModelHaloExchange PropHaloExchange ModelFeatureLayer SpecFeature ProofFeatureLayer PropFeatureLayer PropFeatureConv
  ModelLinear ModelConv ModelPaddingMode SpecPaddingMode.

(** ** Sources *)

Lemma source_ok m n p k : m <> PadZeros -> continuable m n p -> 0 <= p -> - p <= k < n + p -> continued m n k (mode_source m n k).
Proof.
  intros Hm [Hn Hc] Hp Hk. destruct m; cbn [mode_source]; try congruence.
  - unfold continued. destruct (Z.ltb_spec k 0); [lia|]. destruct (Z.leb_spec n k); lia.
  - unfold continued. split; [lia|]. intros e' He'. lia.
  - unfold continued. split; [apply Z.mod_pos_bound; lia|]. exists (k / n). pose proof (Z.div_mod k n). lia.
Qed.

Lemma continued_unique m n p k e e' : continuable m n p -> 0 <= p -> - p <= k < n + p ->
  continued m n k e -> continued m n k e' -> e = e'.
Proof.
  intros [Hn Hc] Hp Hk [H1 H2] [H3 H4]. destruct m; try lia.
  - specialize (H2 (Z.max 0 (Z.min (n - 1) k)) ltac:(lia)). specialize (H4 (Z.max 0 (Z.min (n - 1) k)) ltac:(lia)). lia.
  - destruct H2 as [a Ea], H4 as [a' Ea']. assert (a = a'); [|subst; lia].
    destruct (Z.lt_trichotomy a a') as [A|[A|A]]; auto; exfalso.
    + assert (0 < (a' - a) * n) by nia. assert (n <= (a' - a) * n) by nia. lia.
    + assert (n <= (a - a') * n) by nia. lia.
Qed.

Lemma Forall2_snoc {A B} (Q : A -> B -> Prop) l l' a a' : Forall2 Q (l ++ [a]) (l' ++ [a']) -> Forall2 Q l l' /\ Q a a'.
Proof.
  revert l'. induction l as [|x l IH]; intros [|x' l'] F; cbn [app] in F; inversion F; subst.
  - auto.
  - exfalso. destruct l'; match goal with H : Forall2 Q [] _ |- _ => inversion H end.
  - exfalso. destruct l; match goal with H : Forall2 Q _ [] |- _ => inversion H end.
  - match goal with H : Forall2 Q (l ++ _) _ |- _ => apply IH in H as [H ?] end. split; [constructor|]; auto.
Qed.

Lemma mode_fits_ok m n p : continuable m n p -> mode_fits m n p p = true.
Proof.
  intros [Hn Hc]. unfold mode_fits. rewrite (proj2 (Z.ltb_lt 0 n) Hn). cbn [andb].
  destruct m; auto; apply andb_true_iff; rewrite ?Z.ltb_lt, ?Z.leb_le; lia.
Qed.

Section Pad.
  Context {R : CRing}.
  Variable m : pad_mode.

  Let line (n : Z) (p : Z * Z) (k : Z) : Z := mode_source m n (k - fst p).

  Lemma pad_dims_ok (front : list Z) : forall (pad done : list (Z * Z)) (mid back : list Z) (t t0 : tensor R),
    tshape t0 = front ++ mid ++ back -> length mid = length pad -> length back = length done ->
    tshape t = front ++ mid ++ map2 (fun n p => n + fst p + snd p) back done ->
    (forall i j, length i = length (front ++ mid) -> length j = length back ->
       tat t (i ++ j) = tat t0 (i ++ map3 line back done j)) ->
    Forall2 (fun n p => mode_fits m n (fst p) (snd p) = true) mid pad ->
    exists t', pad_dims_mode m (distdl_padding_to_torch_padding pad) (length front + length mid) t = Some t' /\
      tshape t' = front ++ map2 (fun n p => n + fst p + snd p) (mid ++ back) (pad ++ done) /\
      forall i j, length i = length front -> length j = length (mid ++ back) ->
        tat t' (i ++ j) = tat t0 (i ++ map3 line (mid ++ back) (pad ++ done) j).
  Proof.
    induction pad as [|[l r] pad IH] using rev_ind; intros done mid back t t0 E0 Lm Lb Et V F.
    - destruct mid; [|discriminate]. exists t. split; [now destruct (length front + length (@nil Z))%nat|].
      split; [exact Et|]. intros i j Hi Hj. apply V; auto. now rewrite app_nil_r.
    - rewrite app_length in Lm. cbn [length] in Lm.
      destruct mid as [|n mid _] using rev_ind; [cbn [length] in Lm; lia|]. rewrite app_length in Lm |- *. cbn [length] in Lm |- *.
      unfold distdl_padding_to_torch_padding. rewrite rev_app_distr. cbn [rev app flat_map fst snd].
      fold (distdl_padding_to_torch_padding pad).
      replace (length front + (length mid + 1))%nat with (S (length (front ++ mid))) by (rewrite app_length; lia).
      cbn [pad_dims_mode].
      assert (Fs : Forall2 (fun n p => mode_fits m n (fst p) (snd p) = true) mid pad /\ mode_fits m n l r = true).
      { now apply Forall2_snoc in F. }
      destruct Fs as [F1 F2].
      assert (En : nth (length (front ++ mid)) (tshape t) 0 = n).
      { rewrite Et. rewrite <- app_assoc, app_assoc. cbn [app]. apply nth_app_mid. }
      rewrite En, F2.
      assert (Eq : forall (A : Type) (a b c : list A) (z : A), a ++ (b ++ [z]) ++ c = (a ++ b) ++ z :: c).
      { intros. now rewrite <- !app_assoc. }
      destruct (IH ((l, r) :: done) mid (n :: back) (pad_dim_mode m (length (front ++ mid)) l r t) t0) as (t' & E1 & E2 & E3); auto.
      + rewrite E0. now rewrite <- app_assoc.
      + lia.
      + cbn [length]. lia.
      + unfold pad_dim_mode. cbn [tshape]. rewrite En, Et, Eq, upd_app_mid, <- app_assoc. reflexivity.
      + intros i j Hi Hj. destruct j as [|k j]; [discriminate|]. cbn [length] in Hj.
        unfold pad_dim_mode. cbn [tat]. rewrite En, <- Hi, nth_app_mid, upd_app_mid.
        change (i ++ mode_source m n (k - l) :: j) with (i ++ [mode_source m n (k - l)] ++ j). rewrite app_assoc.
        rewrite V.
        * rewrite <- app_assoc. reflexivity.
        * rewrite app_length, Hi, !app_length. cbn [length]. lia.
        * lia.
      + exists t'. rewrite <- app_length in E1. split; [exact E1|].
        rewrite <- !app_assoc. change ([n] ++ back) with (n :: back). change ([(l, r)] ++ done) with ((l, r) :: done). auto.
  Qed.
End Pad.

(** The tensor [G] continued by the padding. *)
Definition continued_tensor {R : CRing} (m : pad_mode) (w : window) (G : tensor R) : tensor R :=
  mkt (firstn 2 (tshape G) ++ map2 (fun n p => n + 2 * p) (skipn 2 (tshape G)) (w_padding w))
      (fun i => tat G (firstn 2 i ++ map3 (fun n p k => mode_source m n (k - p)) (skipn 2 (tshape G)) (w_padding w) (skipn 2 i))).

Lemma pad_pairs (ps : list Z) : forall xs, map2 (fun n p => n + fst p + snd p) xs (map (fun p : Z => (p, p)) ps) =
  map2 (fun n p => n + 2 * p) xs ps.
Proof. induction ps as [|p ps IH]; intros [|n xs]; cbn [map2 map]; auto. rewrite IH. cbn [fst snd]. f_equal. lia. Qed.
Lemma pad_lines m (ps : list Z) : forall xs q, map3 (fun n p k => mode_source m n (k - fst p)) xs (map (fun p : Z => (p, p)) ps) q =
  map3 (fun n p k => mode_source m n (k - p)) xs ps q.
Proof. induction ps as [|p ps IH]; intros [|n xs] [|k q]; cbn [map3 map]; auto. now rewrite IH. Qed.

Definition num_dims_ok (n : nat) : Prop := (n = 1 \/ n = 2 \/ n = 3)%nat.

Lemma f_pad_mode_ok {R : CRing} m w b c xs (x : tensor R) : m <> PadZeros -> num_dims_ok (length (w_padding w)) ->
  tshape x = b :: c :: xs -> Forall2 (continuable m) xs (w_padding w) ->
  exists t, f_pad_mode m (distdl_padding_to_torch_padding (map (fun p : Z => (p, p)) (w_padding w))) x = Some t /\
            tshape t = tshape (continued_tensor m w x) /\
            forall q, length q = length (tshape t) -> tat t q = tat (continued_tensor m w x) q.
Proof.
  intros Hm Hn Ex F. pose proof (Forall2_length _ _ _ F) as Lx.
  set (pads := map (fun p : Z => (p, p)) (w_padding w)).
  assert (Lp : length pads = length xs) by (unfold pads; rewrite map_length; lia).
  destruct (pad_dims_ok m [b; c] pads [] xs [] x x) as (t & E1 & E2 & E3); auto.
  - rewrite Ex. cbn [app]. now rewrite app_nil_r.
  - rewrite Ex. cbn [app map2]. now rewrite app_nil_r.
  - intros i j _ Hj. destruct j; [|discriminate]. reflexivity.
  - unfold pads. clear - F. revert F. generalize (w_padding w). induction xs as [|n xs IH]; intros ps F; inversion F; subst; [constructor|].
    cbn [map]. constructor; [now apply mode_fits_ok|auto].
  - rewrite !app_nil_r in E2, E3.
    assert (Ls : length (tshape x) = (length [b; c] + length xs)%nat) by (rewrite Ex; reflexivity).
    assert (Lf : length (distdl_padding_to_torch_padding pads) = (2 * length xs)%nat).
    { unfold distdl_padding_to_torch_padding. rewrite <- Lp, <- (rev_length pads). clear. induction (rev pads) as [|p l IH]; auto.
      cbn [flat_map app length]. rewrite IH. lia. }
    assert (Ha : mode_accepts (length (distdl_padding_to_torch_padding pads)) (length (tshape x)) = true).
    { rewrite Lf, Ls. cbn [length]. rewrite <- Lx in Hn. destruct Hn as [-> | [-> | ->]]; reflexivity. }
    exists t. split; [|split].
    + rewrite <- E1, <- Ls. unfold f_pad_mode. rewrite Ha. destruct m; congruence.
    + rewrite E2. unfold continued_tensor. cbn [tshape]. rewrite Ex. cbn [firstn skipn app]. unfold pads. now rewrite pad_pairs.
    + intros q Hq. rewrite E2, app_length, map2_length in Hq by lia. cbn [length] in Hq.
      destruct q as [|b' [|c' q]]; cbn [length] in Hq; try lia.
      change (b' :: c' :: q) with ([b'; c'] ++ q) at 1. rewrite E3 by (cbn [length]; lia).
      unfold continued_tensor. cbn [tat]. rewrite Ex. cbn [firstn skipn app]. unfold pads. now rewrite pad_lines.
Qed.

(** ** The sequential layer *)

Lemma continued_sequential {R : CRing} m (f : @kernel R) cout w (G Y : tensor R) :
  window_ok (length (w_kernel w)) w -> kernel_local w f cout -> m <> PadZeros ->
  is_sequential_mode m f cout w G Y ->
  is_sequential f cout rzero (unpadded w) (continued_tensor m w G) Y /\
  (exists b c xs, tshape G = b :: c :: xs /\ Forall2 (continuable m) xs (w_padding w)).
Proof.
  intros Hw HK Hm HS.
  assert (HS' : exists b c xs ys,
      tshape G = b :: c :: xs /\ tshape Y = b :: cout c :: ys /\
      counts xs w ys /\ 0 < b /\ 0 < c /\ Forall (fun n => 0 < n) ys /\
      Forall2 (continuable m) xs (w_padding w) /\
      forall b' c' o g, valid_index (tshape Y) (b' :: c' :: o) ->
        (forall ch t e, 0 <= ch < c -> valid_index (w_kernel w) t -> length e = length xs ->
           (forall j, (j < length xs)%nat ->
              continued m (nth j xs 0)
                (nth j (w_stride w) 0 * nth j o 0 - nth j (w_padding w) 0 + nth j (w_dilation w) 0 * nth j t 0) (nth j e 0)) ->
           g ch t = tat G (b' :: ch :: e)) ->
        tat Y (b' :: c' :: o) = f c c' g) by (destruct m; auto; congruence).
  clear HS. destruct HS' as (b & c & xs & ys & EG & EY & [Hl Hcnt] & Hb & Hc & Hys & F & HY).
  split; [|eauto 6]. pose proof (Forall2_length _ _ _ F) as Lx.
  pose proof Hw as (W1 & W2 & W3 & W4 & _).
  assert (Ls : length (map2 (fun n p => n + 2 * p) xs (w_padding w)) = length xs) by (rewrite map2_length; auto).
  assert (Nw : forall j, (j < length xs)%nat -> window_count (nth j xs 0 + 2 * nth j (w_padding w) 0) (nth j (w_kernel w) 0)
             (nth j (w_stride w) 0) 0 (nth j (w_dilation w) 0) (nth j ys 0)).
  { intros j Hj. destruct (Hcnt j Hj) as [A B]. split; [auto|]. intros o Ho. specialize (B o Ho). unfold window_fits in *. lia. }
  exists b, c, (map2 (fun n p => n + 2 * p) xs (w_padding w)), ys. split; [|split; [|split; [|split; [|split; [|split]]]]]; auto.
  - unfold continued_tensor. cbn [tshape]. rewrite EG. reflexivity.
  - split; [now rewrite Ls|]. rewrite Ls. intros j Hj. cbn [unpadded w_kernel w_stride w_padding w_dilation].
    rewrite map2_nth with (da := 0) (db := 0) by lia.
    replace (nth j (repeat 0 (nf w)) 0) with 0.
    2:{ destruct (nth_in_or_default j (repeat 0 (nf w)) 0) as [Hr|Hr]; auto. now apply repeat_spec in Hr. }
    auto.
  - intros b' c' o Ho. apply HY; auto. intros ch t e Hch Ht Le He. rewrite Ls.
    cbn [unpadded w_stride w_padding w_dilation].
    set (p := vec (length xs) _).
    assert (Lp : length p = length xs) by apply vec_length.
    rewrite EY in Ho. apply valid_index_cons in Ho as [Hb' Ho]. apply valid_index_cons in Ho as [Hc' Ho].
    pose proof (proj2 (proj1 (valid_index_nth _ _) Ho)) as Bo. pose proof (proj2 (proj1 (valid_index_nth _ _) Ht)) as Bt.
    assert (Np : forall j, (j < length xs)%nat -> nth j p 0 = nth j (w_stride w) 0 * nth j o 0 + nth j (w_dilation w) 0 * nth j t 0).
    { intros j Hj. unfold p. rewrite vec_nth by auto.
      replace (nth j (repeat 0 (nf w)) 0) with 0; [lia|].
      destruct (nth_in_or_default j (repeat 0 (nf w)) 0) as [Hr|Hr]; auto. now apply repeat_spec in Hr. }
    assert (Bp : forall j, (j < length xs)%nat -> 0 <= nth j p 0 < nth j xs 0 + 2 * nth j (w_padding w) 0).
    { intros j Hj. rewrite Np by auto. destruct (window_nth _ _ j Hw) as (B1 & B2 & B3 & B4); [lia|].
      specialize (Bo j ltac:(lia)). specialize (Bt j ltac:(lia)).
      destruct (Nw j Hj) as [_ C]. pose proof (proj1 (C (nth j o 0) ltac:(lia)) ltac:(lia)) as C1. unfold window_fits in C1. nia. }
    assert (Vp : valid_index (map2 (fun n p => n + 2 * p) xs (w_padding w)) p).
    { apply valid_index_nth. split; [lia|]. rewrite Ls. intros j Hj. rewrite map2_nth with (da := 0) (db := 0) by lia. auto. }
    unfold value_at. replace (inside _ _) with true.
    2:{ symmetry. apply inside_spec. unfold continued_tensor. cbn [tshape]. rewrite EG. cbn [firstn skipn app].
        apply valid_index_cons. split; [auto|]. apply valid_index_cons. auto. }
    unfold continued_tensor. cbn [tat]. rewrite EG. cbn [firstn skipn app]. do 3 f_equal.
    apply list_eq_nth with (d := 0); [rewrite map3_length; lia|]. rewrite map3_length by lia. intros j Hj.
    rewrite map3_nth with (da := 0) (db := 0) (dc := 0) by lia. rewrite Np by auto.
    assert (Fj : continuable m (nth j xs 0) (nth j (w_padding w) 0)) by (apply (proj1 (Forall2_nth (continuable m) xs (w_padding w) 0 0) F); auto).
    destruct (window_nth _ _ j Hw) as (B1 & B2 & B3 & B4); [lia|].
    specialize (He j Hj). set (k := nth j (w_stride w) 0 * nth j o 0 - nth j (w_padding w) 0 + nth j (w_dilation w) 0 * nth j t 0) in He.
    replace (nth j (w_stride w) 0 * nth j o 0 + nth j (w_dilation w) 0 * nth j t 0 - nth j (w_padding w) 0) with k by (unfold k; lia).
    assert (Bk : - nth j (w_padding w) 0 <= k < nth j xs 0 + nth j (w_padding w) 0) by (specialize (Bp j Hj); rewrite Np in Bp by auto; unfold k; lia).
    pose proof (source_ok m _ _ k Hm Fj B3 Bk) as Hs. clearbody k.
    exact (continued_unique m _ _ k _ _ Fj B3 Bk Hs He).
Qed.

Lemma continued_teq {R : CRing} m w (G x : tensor R) : m <> PadZeros -> window_ok (length (w_kernel w)) w ->
  (exists b c xs, tshape G = b :: c :: xs /\ Forall2 (continuable m) xs (w_padding w)) -> teq x G ->
  teq (continued_tensor m w x) (continued_tensor m w G).
Proof.
  intros Hm Hw (b & c & xs & EG & F) [Ex Vx]. unfold continued_tensor. rewrite Ex. split; [reflexivity|].
  cbn [tshape tat]. rewrite EG. cbn [firstn skipn app]. pose proof (Forall2_length _ _ _ F) as Lx. intros i Hi.
  apply valid_index_cons_inv in Hi as (b' & i1 & -> & Hb' & Hi).
  apply valid_index_cons_inv in Hi as (c' & q & -> & Hc' & Hq). cbn [firstn skipn app]. apply Vx. rewrite Ex, EG.
  apply valid_index_cons. split; [auto|]. apply valid_index_cons. split; [auto|].
  apply valid_index_nth in Hq as [Lq Bq]. rewrite map2_length in Lq, Bq by auto.
  apply valid_index_nth. rewrite map3_length by lia. split; [auto|]. intros j Hj.
  rewrite map3_nth with (da := 0) (db := 0) (dc := 0) by lia. specialize (Bq j Hj). rewrite map2_nth with (da := 0) (db := 0) in Bq by lia.
  pose proof Hw as (_ & _ & W3 & _). destruct (window_nth _ _ j Hw) as (B1 & B2 & B3 & B4); [lia|].
  assert (Fj : continuable m (nth j xs 0) (nth j (w_padding w) 0)) by (apply (proj1 (Forall2_nth (continuable m) xs (w_padding w) 0 0) F); auto).
  destruct (source_ok m (nth j xs 0) (nth j (w_padding w) 0) (nth j q 0 - nth j (w_padding w) 0) Hm Fj B3 ltac:(lia)) as [A _]. exact A.
Qed.

(** The torch layer without padding. *)
Lemma sliding_serial {R : CRing} (f : @kernel R) cout value w (G Y x : tensor R) :
  window_ok (length (w_kernel w)) w -> kernel_local w f cout -> is_sequential f cout value (unpadded w) G Y ->
  length (tshape G) = S (S (length (w_kernel w))) -> teq x G ->
  exists t, torch_sliding f cout w x = Ok t /\ teq t Y.
Proof.
  intros Hw HK (b & c & xs & ys & EG & EY & [Hl Hcnt] & Hb & Hc & Hys & HY) Hlen [Ex Vx].
  rewrite EG in Ex, Hlen. cbn [length] in Hlen.
  pose proof Hw as (W1 & W2 & W3 & W4 & _).
  assert (Z0 : forall j n, nth j (repeat 0 n) 0 = 0).
  { intros j n. destruct (nth_in_or_default j (repeat 0 n) 0) as [Hr|Hr]; auto. now apply repeat_spec in Hr. }
  unfold torch_sliding. rewrite Ex.
  assert (Ey : compute_out_shape xs (mkwindow (w_kernel w) (w_stride w) (repeat 0 (length xs)) (w_dilation w)) = ys).
  { unfold compute_out_shape. apply list_eq_nth with (d := 0); [rewrite vec_length; lia|].
    intros j Hj. rewrite vec_length in Hj. rewrite vec_nth by auto. cbn [w_kernel w_stride w_padding w_dilation].
    rewrite Z0. destruct (window_nth _ _ j Hw) as (B1 & B2 & B3 & B4); [lia|].
    assert (Hn : 0 < nth j ys 0) by (rewrite Forall_forall in Hys; apply Hys, nth_In; lia).
    unfold out_extent. pose proof (Hcnt j ltac:(lia)) as [_ C]. unfold window_fits in C.
    cbn [unpadded w_kernel w_stride w_padding w_dilation] in C. rewrite Z0 in C.
    pose proof (proj1 (C (nth j ys 0 - 1) ltac:(lia)) ltac:(lia)) as C1.
    assert (C2 : nth j xs 0 <= nth j (w_stride w) 0 * nth j ys 0 + nth j (w_dilation w) 0 * (nth j (w_kernel w) 0 - 1)).
    { destruct (Z.le_gt_cases (nth j xs 0) (nth j (w_stride w) 0 * nth j ys 0 + nth j (w_dilation w) 0 * (nth j (w_kernel w) 0 - 1))) as [A|A]; auto.
      assert (nth j ys 0 < nth j ys 0); [|lia]. apply C; lia. }
    enough (Q : (nth j xs 0 + 2 * 0 - nth j (w_dilation w) 0 * (nth j (w_kernel w) 0 - 1) - 1) / nth j (w_stride w) 0 = nth j ys 0 - 1) by lia.
    symmetry. apply Z.div_unique with (r := nth j xs 0 - nth j (w_dilation w) 0 * (nth j (w_kernel w) 0 - 1) - 1
      - nth j (w_stride w) 0 * (nth j ys 0 - 1)); nia. }
  rewrite Ey.
  assert (T : forallb (fun n => 0 <? n) ys = true).
  { apply forallb_forall. intros z Hz. rewrite Forall_forall in Hys. apply Z.ltb_lt. auto. }
  rewrite T. eexists. split; [reflexivity|]. split; [cbn [tshape]; auto|]. cbn [tshape tat]. intros i Hi.
  pose proof Hi as Hi'. apply valid_index_cons_inv in Hi' as (b' & i1 & -> & Hb' & Hi').
  apply valid_index_cons_inv in Hi' as (c' & o & -> & Hc' & Ho).
  rewrite HY by (rewrite EY; exact Hi). apply HK; auto. intros ch t' Hch Ht.
  pose proof (proj1 (valid_index_nth _ _) Ho) as [Lo Bo]. pose proof (proj1 (valid_index_nth _ _) Ht) as [Lt Bt].
  assert (Ep : window_point w o t' = vec (length xs) (fun j => nth j (w_stride (unpadded w)) 0 * nth j o 0 - nth j (w_padding (unpadded w)) 0
            + nth j (w_dilation (unpadded w)) 0 * nth j t' 0)).
  { unfold window_point, vadd. apply list_eq_nth with (d := 0); [rewrite vec_length, !map2_length; rewrite ?map2_length; lia|].
    intros j Hj. rewrite map2_length in Hj by (rewrite !map2_length; lia). rewrite map2_length in Hj by lia.
    rewrite vec_nth by lia. rewrite map2_nth with (da := 0) (db := 0) by (rewrite !map2_length; lia).
    rewrite !map2_nth with (da := 0) (db := 0) by lia. cbn [unpadded w_stride w_padding w_dilation]. rewrite Z0. lia. }
  rewrite <- Ep. unfold value_at. rewrite EG.
  assert (Hin : valid_index (b :: c :: xs) (b' :: ch :: window_point w o t')).
  { apply valid_index_cons. split; [auto|]. apply valid_index_cons. split; [auto|]. rewrite Ep.
    apply valid_index_nth. rewrite vec_length. split; [auto|]. intros j Hj. rewrite vec_nth by auto.
    cbn [unpadded w_stride w_padding w_dilation]. rewrite Z0.
    destruct (window_nth _ _ j Hw) as (B1 & B2 & B3 & B4); [lia|].
    specialize (Bo j ltac:(lia)). specialize (Bt j ltac:(lia)).
    destruct (Hcnt j Hj) as [_ C]. pose proof (proj1 (C (nth j o 0) ltac:(lia)) ltac:(lia)) as C1. unfold window_fits in C1.
    cbn [unpadded w_kernel w_stride w_padding w_dilation] in C1. rewrite Z0 in C1. nia. }
  rewrite (proj2 (inside_spec _ _) Hin). apply Vx. now rewrite Ex.
Qed.

(** The torch layer with its own padding. *)
Lemma torch_mode_serial {R : CRing} m (f : @kernel R) cout w (G Y x : tensor R) :
  window_ok (length (w_kernel w)) w -> kernel_local w f cout -> num_dims_ok (length (w_kernel w)) ->
  is_sequential_mode m f cout w G Y -> length (tshape G) = S (S (length (w_kernel w))) -> teq x G ->
  exists t, torch_padded_mode m w f cout x = Ok t /\ teq t Y.
Proof.
  intros Hw HK Hn HS Hlen Hx.
  assert (D : m = PadZeros \/ m <> PadZeros) by (destruct m; auto; right; discriminate).
  destruct D as [->|Hm].
  - cbn [torch_padded_mode]. now apply padded_serial with (G := G).
  - destruct (continued_sequential m f cout w G Y Hw HK Hm HS) as [HS' (b & c & xs & EG & F)].
    pose proof Hw as (_ & _ & W3 & _).
    destruct (f_pad_mode_ok m w b c xs x Hm) as (t & E1 & E2 & E3); auto.
    + now rewrite W3.
    + destruct Hx as [-> _]. exact EG.
    + assert (Et : torch_padded_mode m w f cout x = torch_sliding f cout w t).
      { unfold torch_padded_mode. rewrite E1. destruct m; congruence. }
      rewrite Et. apply sliding_serial with (G := continued_tensor m w G) (value := rzero); auto.
      * unfold continued_tensor. cbn [tshape]. rewrite EG. cbn [firstn skipn app length]. rewrite map2_length; [|apply (Forall2_length _ _ _ F)].
        rewrite EG in Hlen. cbn [length] in Hlen. lia.
      * eapply teq_trans; [|apply continued_teq; eauto 6]. split; [exact E2|]. intros q Hq. apply E3. apply valid_index_length in Hq. lia.
Qed.

(** ** Equal programs have the same executions *)

Lemma step_ext {S M} (world : list Z) (prog prog' : Z -> list (list (@action S M))) eager g g' :
  (forall v, In v world -> prog v = prog' v) -> step world prog eager g g' -> step world prog' eager g g'.
Proof.
  intros E H. destruct H as [g v a Hv H|g v i q s Hv H1 H2 H3 H4|g v Hv H1 H2 H3|g v Hv H1 H2 H3]; unfold code in *;
    rewrite E in * by auto.
  - now apply step_act.
  - now apply step_wait with (q := q).
  - now apply step_undef.
  - now apply step_next.
Qed.

Lemma ends_ext {S M} (world : list Z) (rounds rounds' : list (@round S M)) init eager g :
  (forall v, In v world -> rounds_prog rounds v = rounds_prog rounds' v) ->
  ends world rounds init eager g -> ends world rounds' init eager g.
Proof.
  intros E (n & Hr & Hd). exists n. split.
  - clear Hd. induction Hr as [|n g g' Hr IH Hs]; [constructor|]. econstructor; [exact IH|]. now apply step_ext with (prog := rounds_prog rounds).
  - intros v Hv. rewrite <- E by auto. now apply Hd.
Qed.

Lemma history_ext {R : CRing} (P : part) (shape shape' : Z -> list Z) recv send (pre : list (@call R)) (arg arg' : Z -> tensor R) v :
  shape v = shape' v -> arg v = arg' v ->
  rounds_prog (history_rounds P shape recv send (pre ++ [HForward arg])) v =
  rounds_prog (history_rounds P shape' recv send (pre ++ [HForward arg'])) v.
Proof.
  intros Es Ea.
  assert (Eh : forall i, halo_dim P shape recv send v i = halo_dim P shape' recv send v i) by (intros i; unfold halo_dim; now rewrite Es).
  assert (Ef : forall l, map (fun rd : @round hst (tensor R) => rd v) (map (forward_round P shape recv send) l) =
                         map (fun rd : @round hst (tensor R) => rd v) (map (forward_round P shape' recv send) l)).
  { intros l. rewrite !map_map. apply map_ext. intros i. unfold forward_round. now rewrite Eh. }
  assert (Eb : forall l, map (fun rd : @round hst (tensor R) => rd v) (map (backward_round P shape recv send) l) =
                         map (fun rd : @round hst (tensor R) => rd v) (map (backward_round P shape' recv send) l)).
  { intros l. rewrite !map_map. apply map_ext. intros i. unfold backward_round. now rewrite Eh. }
  unfold history_rounds, rounds_prog. rewrite !flat_map_app, !map_app. f_equal.
  - induction pre as [|c pre IH]; [reflexivity|]. cbn [flat_map]. rewrite !map_app, IH. f_equal.
    destruct c; unfold call_rounds; rewrite !map_app, ?Ef, ?Eb; reflexivity.
  - cbn [flat_map]. rewrite !app_nil_r. unfold call_rounds. rewrite !map_app, Ef. f_equal. cbn [map]. unfold load_round. now rewrite Ea.
Qed.

(** ** The feature layer *)

Lemma never_accepted n : mode_accepts (2 * n) n = false.
Proof.
  unfold mode_accepts. cbn [existsb].
  destruct n as [|[|[|[|n]]]]; auto.
  replace (Nat.eqb (2 * S (S (S (S n)))) (2 * 1)) with false by (symmetry; apply Nat.eqb_neq; lia).
  replace (Nat.eqb (2 * S (S (S (S n)))) (2 * 2)) with false by (symmetry; apply Nat.eqb_neq; lia).
  replace (Nat.eqb (2 * S (S (S (S n)))) (2 * 3)) with false by (symmetry; apply Nat.eqb_neq; lia). reflexivity.
Qed.

Lemma flat_length (pad : list (Z * Z)) : length (distdl_padding_to_torch_padding pad) = (2 * length pad)%nat.
Proof.
  unfold distdl_padding_to_torch_padding. rewrite <- (rev_length pad). induction (rev pad) as [|p l IH]; auto.
  cbn [flat_map app length]. rewrite IH. lia.
Qed.

Lemma padded_rejects {R : CRing} m u (x : tensor R) : m <> PadZeros ->
  length (u_padding u) = length (tshape x) -> length (u_halo u) = length (tshape x) ->
  feature_padded_mode m u x =
  if zsum (map (fun p => fst p + snd p) (map2 (fun a b : Z * Z => (fst a + fst b, snd a + snd b)) (u_padding u) (u_halo u))) =? 0
  then Ok x else Raise ErrTorch.
Proof.
  intros Hm H1 H2. unfold feature_padded_mode. destruct (_ =? 0); [reflexivity|].
  assert (E : f_pad_mode m (distdl_padding_to_torch_padding (map2 (fun a b : Z * Z => (fst a + fst b, snd a + snd b)) (u_padding u) (u_halo u))) x = None).
  { unfold f_pad_mode. rewrite flat_length, map2_length, H1, never_accepted by congruence. destruct m; congruence. }
  now rewrite E.
Qed.

Lemma halo_nonneg P_shape idx x_shape w shapes :
  Forall (fun p => 0 <= fst p /\ 0 <= snd p) (compute_halo_shape true P_shape idx x_shape w shapes).
Proof.
  apply Forall_forall. intros p Hp. unfold compute_halo_shape, vec in Hp. apply in_map_iff in Hp as (j & <- & _). cbn [fst snd]. lia.
Qed.

Lemma pair_zero (p : Z * Z) : {p = (0, 0)} + {p <> (0, 0)}.
Proof. destruct p as [a b]. destruct (Z.eq_dec a 0), (Z.eq_dec b 0); subst; auto; right; congruence. Defined.

Lemma setup_halo P w shape v u : feature_setup P w shape v = Ok (Some u) ->
  u_recv u = u_halo u /\ Forall (fun p => 0 <= fst p /\ 0 <= snd p) (u_halo u).
Proof.
  unfold feature_setup. destruct (index_in P v) as [idx|]; [|discriminate].
  destruct (np_pad_left _ _ _); [|discriminate]. cbn [rbind]. destruct (assemble_global_shape _ _ _); [|discriminate]. cbn [rbind].
  unfold compute_exchange_info. cbn [negb]. destruct (expand_window _ _); [|discriminate]. cbn [rbind].
  intros E. injection E as <-. cbn [u_recv u_halo e_recv e_halo]. split; [reflexivity|]. apply halo_nonneg.
Qed.

Section Feature.
  Context {R : CRing}.
  Variables (m : pad_mode) (world : list Z) (P : part) (L : layout) (w : window) (G : tensor R) (x : Z -> tensor R).
  Hypothesis Hm : m <> PadZeros.
  Hypothesis HG : feature_given world P L w.
  Hypothesis HB : holds_blocks P L G x.
  Let shape v := tshape (x v).
  Let gp := 0 :: 0 :: w_padding w.

  Lemma pm_setup idx v : worker_at P idx v -> exists u, feature_setup P w shape v = Ok (Some u) /\
    u_padding u = compute_local_padding (p_shape P) idx gp /\ length (u_padding u) = length (tshape (x v)) /\
    length (u_halo u) = length (tshape (x v)) /\ u_recv u = u_halo u /\ Forall (fun p => 0 <= fst p /\ 0 <= snd p) (u_halo u).
  Proof.
    intros Hv. pose proof (g_setup world P L w G x HG HB idx v Hv) as E. eexists. split; [exact E|].
    pose proof (setup_halo _ _ _ _ _ E) as [E1 E2]. cbn [u_padding u_halo u_recv] in *. fold gp. split; [reflexivity|].
    pose proof HG as (_ & _ & _ & HL & HW & HD & Hw).
    assert (Ls : length (tshape (x v)) = length L).
    { destruct HB as [_ B]. destruct (B idx v Hv) as [Ex _]. rewrite Ex. cbn [block tshape].
      apply block_shape_length. rewrite (valid_index_length _ _ (proj1 Hv)), <- HW. apply layout_workers_length. }
    assert (Lp : length (p_shape P) = length L) by (rewrite <- HW; apply layout_workers_length).
    split; [|split; [|auto]].
    - unfold compute_local_padding. rewrite vec_length. congruence.
    - unfold recv_plan. unfold feature_halos.
      rewrite map2_length; rewrite layer_halos_length; unfold pad_layout; rewrite ?map2_length; cbn [length];
        rewrite ?(valid_index_length _ _ (proj1 Hv)); destruct Hw as (_ & _ & W3 & _); try congruence; lia.
  Qed.

  Lemma gp_ok : Forall (fun n => 0 <= n) gp.
  Proof. unfold gp. destruct HG as (_ & _ & _ & _ & _ & _ & (_ & _ & _ & _ & _ & _ & F & _)). repeat (constructor; [lia|]). exact F. Qed.

  Lemma padding_nonneg idx j : 0 <= fst (nth j (compute_local_padding (p_shape P) idx gp) (0, 0)) /\
                               0 <= snd (nth j (compute_local_padding (p_shape P) idx gp) (0, 0)).
  Proof.
    destruct (Nat.lt_ge_cases j (length (p_shape P))) as [Hj|Hj].
    - unfold compute_local_padding. rewrite vec_nth by auto. cbn [fst snd]. pose proof (nth_nonneg gp j gp_ok).
      destruct (_ =? 0), (_ =? _); lia.
    - rewrite nth_overflow by (unfold compute_local_padding; now rewrite vec_length). cbn. lia.
  Qed.

  (** The total padding of a worker is not positive: it has none. *)
  Lemma zero_total (pad halo : list (Z * Z)) : length pad = length halo ->
    (forall j, 0 <= fst (nth j pad (0, 0)) /\ 0 <= snd (nth j pad (0, 0))) -> Forall (fun p => 0 <= fst p /\ 0 <= snd p) halo ->
    zsum (map (fun p => fst p + snd p) (map2 (fun a b : Z * Z => (fst a + fst b, snd a + snd b)) pad halo)) <= 0 ->
    (forall j, nth j pad (0, 0) = (0, 0)) /\ Forall (fun p => p = (0, 0)) halo.
  Proof.
    revert halo. induction pad as [|p pad IH]; intros [|h halo] El Hp Hh Hz; try discriminate.
    - split; [intros [|j]; reflexivity|constructor].
    - inversion Hh as [|? ? H1 H2]; subst. cbn [map2 map zsum fold_right] in Hz. fold (zsum (map (fun p => fst p + snd p) (map2 (fun a b : Z * Z => (fst a + fst b, snd a + snd b)) pad halo))) in Hz.
      assert (Hp0 := Hp 0%nat). cbn [nth] in Hp0. assert (Hp' : forall j, 0 <= fst (nth j pad (0, 0)) /\ 0 <= snd (nth j pad (0, 0))) by (intros j; exact (Hp (S j))).
      assert (Hs : 0 <= zsum (map (fun p => fst p + snd p) (map2 (fun a b : Z * Z => (fst a + fst b, snd a + snd b)) pad halo))).
      { clear - Hp' H2. revert halo H2. induction pad as [|p pad IH]; intros [|h halo] H2; cbn [map2 map zsum fold_right]; try lia.
        inversion H2; subst. assert (Q := Hp' 0%nat). cbn [nth] in Q. cbn [fst snd].
        specialize (IH (fun j => Hp' (S j)) halo ltac:(assumption)). unfold zsum in IH. lia. }
      cbn [fst snd] in Hz. destruct p as [p1 p2], h as [h1 h2]. cbn [fst snd] in *.
      destruct (IH halo) as [A B]; [now injection El|exact Hp'|exact H2|lia|]. split.
      + intros [|j]; cbn [nth]; [f_equal; lia|apply A].
      + constructor; [f_equal; lia|exact B].
  Qed.

  (** Either the worker pads nothing, or it is refused. *)
  Lemma pm_input idx v : worker_at P idx v ->
    (halo_input_mode m P w shape x v = Ok (x v) /\ halo_input P w rzero shape x v = Ok (x v) /\
     (forall j, nth j (compute_local_padding (p_shape P) idx gp) (0, 0) = (0, 0)) /\
     Forall (fun p => p = (0, 0)) (u_recv (halo_plan P w shape v))) \/
    (halo_input_mode m P w shape x v = Raise ErrTorch /\
     ((exists j, nth j (compute_local_padding (p_shape P) idx gp) (0, 0) <> (0, 0)) \/
      ~ Forall (fun p => p = (0, 0)) (u_recv (halo_plan P w shape v)))).
  Proof.
    intros Hv. destruct (pm_setup idx v Hv) as (u & E & E1 & L1 & L2 & E2 & N).
    unfold halo_input_mode, halo_input, halo_plan. rewrite E. cbn [rbind]. rewrite (padded_rejects m u (x v) Hm L1 L2).
    unfold feature_padded. rewrite E2, <- E1. destruct (Z.eqb_spec (zsum (map (fun p => fst p + snd p) (map2 (fun a b : Z * Z => (fst a + fst b, snd a + snd b)) (u_padding u) (u_halo u)))) 0) as [Z0|Z0].
    - left. split; [reflexivity|]. split; [reflexivity|].
      apply zero_total; auto; [congruence| |lia]. rewrite E1. apply padding_nonneg.
    - right. split; [reflexivity|].
      destruct (Forall_dec (fun p : Z * Z => p = (0, 0)) pair_zero (u_halo u)) as [Fh|Fh]; [|auto].
      destruct (Forall_dec (fun p : Z * Z => p = (0, 0)) pair_zero (u_padding u)) as [Fp|Fp].
      + exfalso. apply Z0. clear - Fh Fp. revert Fh. generalize (u_halo u). induction Fp as [|p l Hp Fp IH]; intros [|h k] Fh; cbn [map2 map]; auto.
        inversion Fh; subst. cbn [zsum fold_right fst snd]. unfold zsum in IH. rewrite IH; auto.
      + left. apply neg_Forall_Exists_neg in Fp; [|intros p; destruct (pair_zero p); [now left|now right]].
        apply Exists_nth in Fp as (j & d & Hj & Hn). exists j. rewrite nth_indep with (d' := d) by auto. exact Hn.
  Qed.

  Lemma pm_inactive v : ~ In v (p_ranks P) -> halo_input_mode m P w shape x v = Ok (x v) /\ halo_input P w rzero shape x v = Ok (x v).
  Proof. intros Hv. unfold halo_input_mode, halo_input, shape. now rewrite (g_inactive P w x v Hv). Qed.

  (** The border of a padded dimension. *)
  Lemma pm_border idx v : worker_at P idx v -> padded_border (p_shape P) idx (w_padding w) ->
    halo_input_mode m P w shape x v = Raise ErrTorch.
  Proof.
    intros Hv (j & Hj & Hp & Hb). destruct (pm_input idx v Hv) as [(_ & _ & Z0 & _)|[E _]]; [|exact E]. exfalso.
    specialize (Z0 (S (S j))). unfold compute_local_padding in Z0. rewrite vec_nth in Z0.
    - cbn [gp nth] in Z0. injection Z0 as Z1 Z2. change (nth (S (S j)) idx 0) with (nth (S (S j)) idx 0) in *.
      destruct Hb as [Hb|Hb].
      + unfold gp in Z1. cbn [nth] in Z1. rewrite Hb in Z1. cbn in Z1. lia.
      + unfold gp in Z2. cbn [nth] in Z2. rewrite Hb, Z.eqb_refl in Z2. lia.
    - destruct HG as (_ & _ & _ & _ & _ & -> & (_ & _ & W3 & _)). lia.
  Qed.

  (** When no worker is refused there is no padding. *)
  Lemma pm_quiet : (forall v, In v (p_ranks P) -> halo_input_mode m P w shape x v <> Raise ErrTorch) -> w = unpadded w.
  Proof.
    intros Hq. assert (Ez : w_padding w = repeat 0 (nf w)).
    { pose proof HG as (_ & _ & HP & _ & _ & HD & (_ & _ & W3 & _)).
      assert (Hz : valid_index (p_shape P) (repeat 0 (length (p_shape P)))).
      { destruct HP as (_ & _ & Hp & _). clear - Hp. induction Hp as [|n l Hn Hp IH]; [constructor|]. cbn [length repeat].
        apply valid_index_cons. split; [lia|auto]. }
      destruct (worker_exists P (repeat 0 (length (p_shape P))) HP Hz) as [v Hv].
      destruct (pm_input _ v Hv) as [(_ & _ & Z0 & _)|[E _]]; [|exfalso; apply (Hq v); [eapply worker_at_In; eauto|exact E]].
      apply list_eq_nth with (d := 0); [rewrite repeat_length; exact W3|]. intros j Hj.
      specialize (Z0 (S (S j))). unfold compute_local_padding in Z0. rewrite vec_nth in Z0 by lia. injection Z0 as Z1 _.
      rewrite nth_repeat in Z1. cbn in Z1. rewrite nth_repeat. unfold gp in Z1. cbn [nth] in Z1. exact Z1. }
    unfold unpadded. rewrite <- Ez. now destruct w.
  Qed.
End Feature.

Lemma is_sequential_teq {R : CRing} (f : @kernel R) cout value w (G G' Y : tensor R) :
  kernel_local w f cout -> teq G G' -> is_sequential f cout value w G Y -> is_sequential f cout value w G' Y.
Proof.
  intros HK [E V] (b & c & xs & ys & EG & EY & Hc & Hb & Hc0 & Hys & HY).
  exists b, c, xs, ys. split; [congruence|]. do 5 (split; [auto|]). intros b' c' o Ho. rewrite HY by auto.
  apply HK.
  - intros ch t _ _. unfold value_at. rewrite <- E. destruct (inside _ _) eqn:Ei; [|reflexivity]. apply inside_spec in Ei. now apply V.
  - rewrite EY in Ho. apply valid_index_cons in Ho as [_ Ho]. now apply valid_index_cons in Ho as [Ho _].
Qed.

(** Without padding all modes agree. *)
Lemma unpadded_mode {R : CRing} m (f : @kernel R) cout w (G Y : tensor R) :
  window_ok (length (w_kernel w)) w -> kernel_local w f cout -> w = unpadded w ->
  is_sequential_mode m f cout w G Y -> is_sequential f cout rzero w G Y.
Proof.
  intros Hw HK E0 HS.
  assert (D : m = PadZeros \/ m <> PadZeros) by (destruct m; auto; right; discriminate).
  destruct D as [->|Hm]; [exact HS|].
  destruct (continued_sequential m f cout w G Y Hw HK Hm HS) as [HS' (b & c & xs & EG & F)]. rewrite <- E0 in HS'.
  apply is_sequential_teq with (G := continued_tensor m w G); auto.
  assert (Pz : forall j, nth j (w_padding w) 0 = 0).
  { intros j. rewrite E0. cbn [unpadded w_padding]. apply nth_repeat. }
  pose proof (Forall2_length _ _ _ F) as Lx.
  assert (Es : tshape (continued_tensor m w G) = b :: c :: xs).
  { unfold continued_tensor. cbn [tshape]. rewrite EG. cbn [firstn skipn app]. do 2 f_equal.
    apply list_eq_nth with (d := 0); [now rewrite map2_length|]. rewrite map2_length by auto. intros j Hj.
    rewrite map2_nth with (da := 0) (db := 0) by lia. rewrite Pz. lia. }
  split; [congruence|]. intros i Hi. rewrite Es in Hi.
  apply valid_index_cons_inv in Hi as (b' & i1 & -> & Hb' & Hi). apply valid_index_cons_inv in Hi as (c' & q & -> & Hc' & Hq).
  unfold continued_tensor. cbn [tat]. rewrite EG. cbn [firstn skipn app]. do 3 f_equal.
  apply valid_index_nth in Hq as [Lq Bq].
  apply list_eq_nth with (d := 0); [rewrite map3_length; lia|]. rewrite map3_length by lia. intros j Hj.
  rewrite map3_nth with (da := 0) (db := 0) (dc := 0) by lia. rewrite Pz, Z.sub_0_r.
  specialize (Bq j Hj). assert (Fj : continuable m (nth j xs 0) 0).
  { pose proof (proj2 (proj1 (Forall2_nth (continuable m) xs (w_padding w) 0 0) F) j Hj) as Fj. now rewrite Pz in Fj. }
  apply (continued_unique m (nth j xs 0) 0 (nth j q 0)); auto; try lia.
  - apply source_ok with (p := 0); auto; lia.
  - split; [lia|]. destruct m; auto.
    + intros e' _. rewrite Z.sub_diag. cbn. lia.
    + rewrite Z.sub_diag. now exists 0.
Qed.
