(** C33 for the generally-distributed convolution. *)

From Verif Require Import Prelude SpecIndex SpecLayout SpecPartition SpecHalo ModelSlicing ModelDecomposition ModelPartition ProofSlicing
  ProofDecomposition ProofPartition Ring Tensor ModelCollectives ProofCollectives PropCollectives Blocks ModelUtilities P2P Rounds
  ModelRepartition ProofRepartition PropRepartition ModelHaloMixin ProofHaloMixin PropHaloMixin ModelHaloExchange PropHaloExchange
  ModelFeatureLayer SpecFeature ProofFeatureLayer PropFeatureLayer PropFeatureConv ModelLinear ProofWork PropLinear ModelConv ProofConv
  PropFeatureCommon ProofConvParts PropConv PropConvChannel.

(** ** The exchanged input that a worker of P_x broadcasts *)

Section Needed.
  Context {R : CRing}.
  Variables (world : list Z) (P : part) (L : layout) (w : window) (value : R) (G : tensor R) (x : Z -> tensor R).
  Hypothesis HG : feature_given world P L w.
  Variables (b c : Z) (xs ys : list Z).
  Hypothesis EG : tshape G = b :: c :: xs.
  Hypothesis Hcnt : counts xs w ys.
  Hypothesis Hb : 0 < b.
  Hypothesis Hc0 : 0 < c.
  Hypothesis Hys : Forall (fun n => 0 < n) ys.
  Hypothesis HB : holds_blocks P L G x.
  Hypothesis Hin : within L w (b :: c :: ys).

  Let shape v := tshape (x v).
  Let arg := halo_argument P w value shape x.
  Let plan := halo_plan P w shape.
  Let rounds := history_rounds (R := R) P (fun v => tshape (arg v)) (fun v => u_recv (plan v)) (fun v => u_send (plan v)).
  Let n j := nth j (p_shape P) 0.

  (** Any kernel will do to use the lemmas of C30. *)
  Let f0 : @kernel R := fun _ _ _ => rzero.
  Let Y0 : tensor R := mkt (b :: c :: ys) (fun _ => rzero).
  Let HY0 : forall b' c' o, valid_index (tshape Y0) (b' :: c' :: o) ->
    tat Y0 (b' :: c' :: o) =
    f0 c c' (fun ch t => value_at G value (b' :: ch ::
      vec (length xs) (fun j => nth j (w_stride w) 0 * nth j o 0 - nth j (w_padding w) 0
                                + nth j (w_dilation w) 0 * nth j t 0))).
  Proof. intros b' c' o _. reflexivity. Qed.

  Definition window_read (idx : list Z) (b' ch : Z) (o t : list Z) : list Z :=
    start1 (nth 0 (p_shape P) 0) (nth 0 idx 0) b + b' :: start1 (nth 1 (p_shape P) 0) (nth 1 idx 0) c + ch ::
    vec (length (w_kernel w)) (fun k =>
      nth k (w_stride w) 0 * (start1 (nth (2 + k) (p_shape P) 0) (nth (2 + k) idx 0) (nth k ys 0) + nth k o 0)
      - nth k (w_padding w) 0 + nth k (w_dilation w) 0 * nth k t 0).

  Let Lp := pad_layout L (0 :: 0 :: w_padding w).
  Let H := feature_halos L w.

  Lemma exchanged_shape sh recv send pre init eager g idx v :
    planned P Lp H sh recv send -> Forall (call_ok P Lp H) pre ->
    ends world (history_rounds (R := R) P sh recv send (pre ++ [HForward arg])) init eager g -> worker_at P idx v ->
    tshape (halo_result g v) = padded_shape Lp H idx.
  Proof.
    intros Hpl Hpre Hend Hv.
    apply (exchanged_by world P L w f0 value G Y0 x HG b c xs ys EG Hcnt Hb Hc0 Hys HY0 HB Hin _ _ _
                pre init eager g idx v Hpl Hpre Hend Hv).
  Qed.

  (** By any plan of these extents. *)
  Lemma needed_windows_by sh recv send pre init eager g idx v :
    planned P Lp H sh recv send -> Forall (call_ok P Lp H) pre ->
    ends world (history_rounds (R := R) P sh recv send (pre ++ [HForward arg])) init eager g -> worker_at P idx v ->
    let sl := general_input w P shape x (halo_result g) v in
    exists es, tshape sl = subshape1 (n 0) (nth 0 idx 0) b :: subshape1 (n 1) (nth 1 idx 0) c :: es /\
      length es = length (w_kernel w) /\
      (forall k, (k < length (w_kernel w))%nat ->
         out_extent (nth k es 0) (nth k (w_kernel w) 0) (nth k (w_stride w) 0) 0 (nth k (w_dilation w) 0) =
         subshape1 (n (2 + k)) (nth (2 + k) idx 0) (nth k ys 0) /\
         0 < subshape1 (n (2 + k)) (nth (2 + k) idx 0) (nth k ys 0)) /\
      nonneg_shape (tshape sl) /\
      forall b' ch o t, 0 <= b' < subshape1 (n 0) (nth 0 idx 0) b -> 0 <= ch < subshape1 (n 1) (nth 1 idx 0) c ->
        valid_index (vec (length (w_kernel w)) (fun k => subshape1 (n (2 + k)) (nth (2 + k) idx 0) (nth k ys 0))) o ->
        valid_index (w_kernel w) t ->
        valid_index (tshape sl) (b' :: ch :: window_point w o t) /\
        tat sl (b' :: ch :: window_point w o t) = value_at G value (window_read idx b' ch o t).
  Proof.
    intros Hpl Hpre Hend Hv sl. pose proof (proj1 Hv) as Hi.
    destruct (exchanged_by world P L w f0 value G Y0 x HG b c xs ys EG Hcnt Hb Hc0 Hys HY0 HB Hin _ _ _
                pre init eager g idx v Hpl Hpre Hend Hv) as [E1 E2].
    assert (Gl : length L = Datatypes.S (Datatypes.S (nf w))) by exact (g_len world P L w HG).
    assert (Gs : forall v idx, worker_at P idx v -> shape v = block_shape L idx)
      by (intros v' i' Hv'; exact (g_shapes P L G x HB v' i' Hv')).
    assert (Gc : counts (layout_shape L) (full_window (length L) w) (b :: c :: ys))
      by exact (g_counts world P L w f0 value G Y0 x HG b c xs ys EG Hcnt Hb Hc0 HY0 HB).
    assert (Gn : Forall (fun n => 0 < n) (b :: c :: ys)) by (repeat (constructor; auto)).
    assert (Gw : window_ok (nf w) w) by apply HG.
    assert (Gp : part_ok P) by apply HG. assert (Go : layout_ok L) by apply HG. assert (Gk : layout_workers L = p_shape P) by apply HG.
    set (gp := 0 :: 0 :: w_padding w).
    set (nr := compute_needed_ranges (block_shape (pad_layout L gp) idx) (signed_halos L w idx)).
    assert (Esl : sl = slice_tensor (halo_result g v) nr).
    { unfold sl, general_input, shape. rewrite (g_setup world P L w G x HG HB idx v Hv). reflexivity. }
    set (ext := local_extents L w (b :: c :: ys) idx). set (fin := first_input L w (b :: c :: ys) idx).
    assert (S1 : tshape sl = ext).
    { rewrite Esl. exact (sliced_shape P L w (b :: c :: ys) shape Gp Go Gk Gl Gw Gc Gn Hin Gs idx Hi (halo_result g v) E1). }
    assert (V1 : forall q, valid_index ext q -> tat sl q = value_at G value (vsub (vadd fin q) gp)).
    { rewrite Esl. exact (sliced_value P L w (b :: c :: ys) shape Gp Go Gk Gl Gw Gc Gn Hin Gs idx Hi (halo_result g v)
               (fun p => value_at G value (vsub p gp)) E1 E2). }
    pose proof (ext_facts world P L w f0 value G Y0 x HG b c xs ys EG Hcnt Hb Hc0 Hys HY0 HB Hin idx Hi) as EF.
    destruct (ext_unit world P L w f0 value G Y0 x HG b c xs ys EG Hcnt Hb Hc0 Hys HY0 HB Hin idx Hi 0 ltac:(lia)) as [U0 U0'].
    destruct (ext_unit world P L w f0 value G Y0 x HG b c xs ys EG Hcnt Hb Hc0 Hys HY0 HB Hin idx Hi 1 ltac:(lia)) as [U1 U1'].
    destruct (ext_cons world P L w f0 value G Y0 x HG b c xs ys EG Hcnt Hb Hc0 Hys HY0 HB Hin idx Hi) as (es & Ee & Le & Ne).
    cbv beta in EF, U0, U0', U1, U1', Ee. change (nth 0 (b :: c :: ys) 0) with b in *. change (nth 1 (b :: c :: ys) 0) with c in *.
    fold ext fin in EF, U0, U0', U1, U1', Ee, Ne. fold (n 0%nat) (n 1%nat) in U0, U0', U1, U1', Ee.
    assert (Lf : length fin = length L) by (unfold fin, first_input; apply vec_length).
    assert (Lx : length ext = length L) by (unfold ext, local_extents; apply vec_length).
    assert (EK : forall k, (k < nf w)%nat ->
       out_extent (nth k es 0) (nth k (w_kernel w) 0) (nth k (w_stride w) 0) 0 (nth k (w_dilation w) 0) =
         subshape1 (n (2 + k)) (nth (2 + k) idx 0) (nth k ys 0) /\
       nth k (w_stride w) 0 * (subshape1 (n (2 + k)) (nth (2 + k) idx 0) (nth k ys 0) - 1) + nth k (w_dilation w) 0 * (nth k (w_kernel w) 0 - 1)
         < nth k es 0 /\
       0 < subshape1 (n (2 + k)) (nth (2 + k) idx 0) (nth k ys 0) /\ 0 < nth k (w_stride w) 0 /\ 0 < nth k (w_dilation w) 0 /\
       nth (2 + k) fin 0 = nth k (w_stride w) 0 * start1 (n (2 + k)) (nth (2 + k) idx 0) (nth k ys 0)).
    { intros k Hk. pose proof (EF (2 + k)%nat ltac:(rewrite Gl; lia)) as F. rewrite (g_fw world P L w G x HG HB) in F.
      cbn [w_kernel w_stride w_dilation Nat.add nth] in F. rewrite Ne by exact Hk. exact F. }
    exists es. split; [rewrite S1; exact Ee|]. split; [exact Le|]. split; [|split].
    - intros k Hk. destruct (EK k Hk) as (F1 & _ & F2 & _). auto.
    - rewrite S1, Ee. assert (Sn : forall P' i m, 0 < P' -> 0 <= m -> 0 <= subshape1 P' i m) by (intros; now apply subshape1_nonneg).
      assert (Pn : forall k, (k < length L)%nat -> 0 < n k).
      { intros k Hk. destruct Gp as (_ & _ & Hp & _). unfold n. unfold pos_shape in Hp. rewrite Forall_forall in Hp. apply Hp, nth_In.
        rewrite <- Gk, layout_workers_length. exact Hk. }
      constructor; [apply Sn; [apply Pn; lia|lia]|]. constructor; [apply Sn; [apply Pn; lia|lia]|].
      apply Forall_forall. intros z Hz. apply In_nth with (d := 0) in Hz as (k & Hk & <-). rewrite Le in Hk.
      destruct (EK k Hk) as (_ & F1 & F2 & F3 & F4 & _). destruct (window_nth _ _ k Gw Hk) as (B1 & _). nia.
    - intros b' ch o t Hb' Hch Ho Ht. apply valid_index_nth in Ho as [Lo Bo]. apply valid_index_nth in Ht as [Lt Bt].
      rewrite vec_length in Lo, Bo. destruct Gw as (W1 & W2 & W3 & W4 & _). unfold nf in *.
      assert (Lwp : length (window_point w o t) = length (w_kernel w)).
      { unfold window_point, vadd. rewrite !map2_length; rewrite ?map2_length; lia. }
      assert (Nwp : forall j, (j < length (w_kernel w))%nat -> nth j (window_point w o t) 0 =
                nth j (w_stride w) 0 * nth j o 0 + nth j (w_dilation w) 0 * nth j t 0).
      { intros j Hj. unfold window_point, vadd.
        rewrite map2_nth with (da := 0) (db := 0); rewrite ?map2_length; try lia.
        rewrite !map2_nth with (da := 0) (db := 0); try lia. }
      assert (HV : valid_index ext (b' :: ch :: window_point w o t)).
      { rewrite Ee. apply valid_index_cons. split; [exact Hb'|]. apply valid_index_cons. split; [exact Hch|].
        apply valid_index_nth. split; [lia|]. intros k Hk. rewrite Le in Hk. rewrite Nwp by auto.
        destruct (EK k Hk) as (_ & F1 & F2 & F3 & F4 & _). pose proof (Bo k Hk) as B1. rewrite vec_nth in B1 by auto. pose proof (Bt k Hk). nia. }
      split; [rewrite S1; exact HV|]. rewrite V1 by exact HV. f_equal. apply list_eq_nth with (d := 0); unfold vadd, vsub, window_read.
      + rewrite !map2_length; rewrite ?map2_length; rewrite ?Lf; cbn [length gp]; rewrite ?vec_length; lia.
      + intros j Hj. rewrite !map2_length in Hj; rewrite ?map2_length; rewrite ?Lf in *; cbn [length gp] in *; try lia.
        rewrite map2_nth with (da := 0) (db := 0); rewrite ?map2_length; rewrite ?Lf; cbn [length gp]; try lia.
        rewrite map2_nth with (da := 0) (db := 0); rewrite ?Lf; cbn [length]; try lia.
        destruct j as [|[|j]].
        * rewrite U0'. cbn [nth gp]. unfold n. lia.
        * rewrite U1'. cbn [nth gp]. unfold n. lia.
        * change (Datatypes.S (Datatypes.S j)) with (2 + j)%nat. destruct (EK j ltac:(lia)) as (_ & _ & _ & _ & _ & F). rewrite F.
          cbn [Nat.add nth gp]. rewrite Nwp by lia. rewrite vec_nth by lia. unfold n. cbn [Nat.add]. lia.
  Qed.

  Lemma needed_windows pre init eager g idx v :
    same_calls P arg pre -> ends world (rounds (pre ++ [HForward arg])) init eager g -> worker_at P idx v ->
    let sl := general_input w P shape x (halo_result g) v in
    exists es, tshape sl = subshape1 (n 0) (nth 0 idx 0) b :: subshape1 (n 1) (nth 1 idx 0) c :: es /\
      length es = length (w_kernel w) /\
      (forall k, (k < length (w_kernel w))%nat ->
         out_extent (nth k es 0) (nth k (w_kernel w) 0) (nth k (w_stride w) 0) 0 (nth k (w_dilation w) 0) =
         subshape1 (n (2 + k)) (nth (2 + k) idx 0) (nth k ys 0) /\
         0 < subshape1 (n (2 + k)) (nth (2 + k) idx 0) (nth k ys 0)) /\
      nonneg_shape (tshape sl) /\
      forall b' ch o t, 0 <= b' < subshape1 (n 0) (nth 0 idx 0) b -> 0 <= ch < subshape1 (n 1) (nth 1 idx 0) c ->
        valid_index (vec (length (w_kernel w)) (fun k => subshape1 (n (2 + k)) (nth (2 + k) idx 0) (nth k ys 0))) o ->
        valid_index (w_kernel w) t ->
        valid_index (tshape sl) (b' :: ch :: window_point w o t) /\
        tat sl (b' :: ch :: window_point w o t) = value_at G value (window_read idx b' ch o t).
  Proof.
    intros Hpre Hend Hv.
    exact (needed_windows_by _ _ _ pre init eager g idx v (g_planned world P L w value G x HG b c ys HB)
             (g_calls world P L w value G x HG b c ys HB pre Hpre) Hend Hv).
  Qed.
End Needed.

(** ** The local layer on it *)

Section Sliding.
  Context {R : CRing}.
  Variables (Px Py Pw : part) (co ci : Z) (S : list Z) (w : window) (groups cin cout : Z).
  Variables (W : tensor R) (bias : option (tensor R)) (X Y : tensor R).
  Hypothesis HL : conv_layer Px Py Pw co ci S w groups cin cout W bias X Y.
  Hypothesis HE : plain groups Px Py Pw.
  Variables (b : Z) (xs ys : list Z).
  Hypothesis EX : tshape X = b :: cin :: xs.
  Hypothesis Lxs : length xs = length (w_kernel w).
  Hypothesis EY : tshape Y = b :: cout :: ys.
  Let nk := length (w_kernel w).

  Variables (j i : Z) (wt : tensor R) (bt : option (tensor R)).
  Hypothesis Hj : 0 <= j < co.
  Hypothesis Hi : 0 <= i < ci.
  Hypothesis Hwt : teq wt (weight_block co ci w W j i).
  Hypothesis Hbt : match (if i =? 0 then bias_block co cout bias j else None), bt with
                   | Some v, Some v' => teq v' v
                   | None, None => True
                   | _, _ => False
                   end.

  Variables (s es : list Z) (sl : tensor R).
  Hypothesis Esl : tshape sl = b :: subshape1 ci i cin :: es.
  Hypothesis Les : length es = nk.
  Hypothesis Hes : forall k, (k < nk)%nat ->
    out_extent (nth k es 0) (nth k (w_kernel w) 0) (nth k (w_stride w) 0) 0 (nth k (w_dilation w) 0) =
    subshape1 (nth k S 0) (nth k s 0) (nth k ys 0) /\ 0 < subshape1 (nth k S 0) (nth k s 0) (nth k ys 0).
  Hypothesis Hsl : forall b' ch o t, 0 <= b' < b -> 0 <= ch < subshape1 ci i cin ->
    valid_index (vec nk (fun k => subshape1 (nth k S 0) (nth k s 0) (nth k ys 0))) o -> valid_index (w_kernel w) t ->
    valid_index (tshape sl) (b' :: ch :: window_point w o t) /\
    tat sl (b' :: ch :: window_point w o t) = value_at X rzero (b' :: start1 ci i cin + ch :: read_point S w ys s o t).

  Lemma sliding_part t : teq t sl ->
    exists t', torch_conv false w groups wt bt t = Ok t' /\ teq t' (part_out co ci S w groups cin cout b ys W X bias j i s).
  Proof.
    intros [Et Vt]. unfold torch_conv. rewrite Et, Esl. cbn [nth].
    rewrite (h_check Px Py Pw co ci S w groups cin cout W bias X Y HL HE j i wt Hj Hi Hwt), Z.eqb_refl.
    unfold torch_sliding. rewrite Et, Esl.
    set (yl := compute_out_shape es _).
    assert (Eyl : yl = vec nk (fun k => subshape1 (nth k S 0) (nth k s 0) (nth k ys 0))).
    { unfold yl, compute_out_shape. apply list_eq_nth with (d := 0); rewrite !vec_length; [auto|]. intros k Hk. rewrite !vec_nth by lia.
      cbn [w_kernel w_stride w_padding w_dilation]. rewrite nth_zeros. apply Hes. lia. }
    rewrite Eyl. assert (T1 : forallb (fun n => 0 <? n) (vec nk (fun k => subshape1 (nth k S 0) (nth k s 0) (nth k ys 0))) = true).
    { apply forallb_forall. intros z Hz. apply In_nth with (d := 0) in Hz as (k & Hk & <-). rewrite vec_length in Hk. rewrite vec_nth by auto.
      apply Z.ltb_lt, Hes, Hk. }
    rewrite T1. eexists. split; [reflexivity|].
    pose proof (h_c0 Px Py Pw co ci S w groups cin cout W bias X Y HL j i wt Hj Hi Hwt) as E0. cbv zeta in E0.
    split.
    - cbn [tshape part_out]. unfold part_shape. now rewrite E0.
    - cbn [tshape part_out tat]. intros q Hq. apply valid_index_cons_inv in Hq as (b' & q' & -> & Hb' & Hq).
      apply valid_index_cons_inv in Hq as (c' & o & -> & Hc' & Ho).
      apply (h_kernel Px Py Pw co ci S w groups cin cout W bias X Y HL HE j i wt bt Hj Hi Hwt Hbt).
      + rewrite <- E0. exact Hc'.
      + intros ch t' Hch Ht'. destruct (Hsl b' ch o t' Hb' Hch Ho Ht') as [V1 V2]. rewrite <- V2. apply Vt. now rewrite Et.
  Qed.
End Sliding.

(** ** The parameters *)

Lemma mask_true n : forall c, length c = n -> mask_zero (repeat true n) c = all_zero c.
Proof.
  intros c <-. induction c as [|a c IH]; [reflexivity|]. unfold mask_zero, all_zero in *. cbn [length repeat combine forallb fst snd]. now rewrite IH.
Qed.
Lemma mask_false n : forall c, mask_zero (repeat false n) c = true.
Proof.
  induction n as [|n IH]; intros [|a c]; try reflexivity. unfold mask_zero in *. cbn [repeat combine forallb fst snd andb]. apply IH.
Qed.
Lemma mask_cons b m i c : mask_zero (b :: m) (i :: c) = (if b then i =? 0 else true) && mask_zero m c.
Proof. reflexivity. Qed.
Lemma masked_true l : masked (repeat true (length l)) l = repeat 1 (length l).
Proof. induction l as [|a l IH]; [reflexivity|]. cbn [length repeat masked map2]. f_equal. exact IH. Qed.
Lemma masked_false l : masked (repeat false (length l)) l = l.
Proof. induction l as [|a l IH]; [reflexivity|]. cbn [length repeat masked map2]. f_equal. exact IH. Qed.
Lemma unmask_true n : forall l, length l = n -> unmask (repeat true n) l = repeat 0 n.
Proof. intros l <-. induction l as [|a l IH]; [reflexivity|]. cbn [length repeat unmask map2]. f_equal. exact IH. Qed.
Lemma false_map (l : list Z) : map (fun _ => false) l = repeat false (length l).
Proof. induction l as [|a l IH]; [reflexivity|]. cbn [map length repeat]. now f_equal. Qed.
Lemma le_masks m m' : Forall2 (fun a c : bool => c = true -> a = true) (repeat true m) (repeat m' m).
Proof. induction m as [|m IH]; constructor; auto. Qed.

Section Params.
  Context {R : CRing}.
  Variables (Px Py Pw : part) (co ci : Z) (S : list Z).
  Hypothesis HP : conv_partitions Px Py Pw co ci S.
  Variables (w : window) (cout : Z) (W : tensor R) (bias : option (tensor R)) (weight bias_of : Z -> tensor R).
  Hypothesis HS : length S = length (w_kernel w).
  Hypothesis HH : conv_parameters_held Pw co ci w cout W bias weight bias_of.
  Let nk := length (w_kernel w).

  Let wr := false :: false :: repeat true nk.
  Let bu := false :: true :: repeat false nk.
  Let br := false :: true :: repeat true nk.

  Lemma q_roots : weight_roots Pw = Ok (sub_part wr Pw) /\ bias_users Pw = Ok (sub_part bu Pw) /\ bias_roots Pw = Ok (sub_part br Pw).
  Proof.
    pose proof (c_pw _ _ _ _ _ _ HP) as Hw. pose proof (c_sw _ _ _ _ _ _ HP) as Es.
    assert (Lm : forall (a c : bool) m, length m = length S -> length (a :: c :: m) = length (p_shape Pw))
      by (intros; rewrite Es; cbn [length]; congruence).
    assert (Hc : forall c, valid_index (p_shape Pw) c -> exists j i s, c = j :: i :: s /\ length s = length S).
    { intros c Hc. destruct (pw_idx _ _ _ _ _ _ HP c Hc) as (j & i & s & -> & _ & _ & Hs). exists j, i, s. split; auto.
      now apply valid_index_length in Hs. }
    split; [|split].
    - apply sub_eq; auto.
      + unfold wr, nk. apply Lm. rewrite repeat_length. symmetry. exact HS.
      + intros c Hv. destruct (Hc c Hv) as (j & i & s & -> & Ls). unfold wr, nk. rewrite !mask_cons. cbn [andb skipn]. symmetry. apply mask_true. congruence.
      + rewrite Es. cbn [firstn skipn app wr masked map2]. do 2 f_equal. unfold nk. rewrite <- HS. symmetry. apply masked_true.
    - apply sub_eq; auto.
      + unfold bu, nk. apply Lm. rewrite repeat_length. symmetry. exact HS.
      + intros c Hv. destruct (Hc c Hv) as (j & i & s & -> & Ls). unfold bu, nk. rewrite !mask_cons, mask_false. cbn [andb nth]. now rewrite andb_true_r.
      + rewrite Es. cbn [firstn skipn app bu masked map2]. do 2 f_equal. unfold nk. rewrite <- HS. symmetry. apply masked_false.
    - apply sub_eq; auto.
      + unfold br, nk. apply Lm. rewrite repeat_length. symmetry. exact HS.
      + intros c Hv. destruct (Hc c Hv) as (j & i & s & -> & Ls). unfold br, nk. rewrite !mask_cons. cbn [andb skipn all_zero forallb]. f_equal.
        symmetry. apply mask_true. congruence.
      + rewrite Es. cbn [firstn skipn app br masked map2]. do 2 f_equal. unfold nk. rewrite <- HS. symmetry. apply masked_true.
  Qed.

  Variables (dtw dtb : Z -> Z) (rgw rgb : Z -> bool).

  Lemma q_params j i s u : worker_at Pw (j :: i :: s) u ->
    (exists wt, general_weight Pw dtw rgw weight u = Ok wt /\ teq wt (weight_block co ci w W j i)) /\
    exists bt, general_bias Pw (has_bias bias) dtb rgb bias_of u = Ok bt /\
      match (if i =? 0 then bias_block co cout bias j else None), bt with
      | Some v, Some v' => teq v' v
      | None, None => True
      | _, _ => False
      end.
  Proof.
    intros Hu. destruct q_roots as (E1 & E2 & E3). pose proof (c_pw _ _ _ _ _ _ HP) as Hw. pose proof (c_sw _ _ _ _ _ _ HP) as Es.
    destruct (pw_idx _ _ _ _ _ _ HP _ (proj1 Hu)) as (j' & i' & s' & E & Hj & Hi & Hs). inversion E; subst j' i' s'. clear E.
    assert (Ls : length s = nk) by (apply valid_index_length in Hs; unfold nk; congruence).
    assert (Lm : forall (a c : bool) m, length m = nk -> length (a :: c :: m) = length (p_shape Pw))
      by (intros; rewrite Es; cbn [length]; unfold nk in *; congruence).
    destruct HH as (HH1 & HH2 & HH3). fold nk in HH1, HH2.
    assert (Hz : valid_index S (repeat 0 nk)).
    { destruct (c_pos _ _ _ _ _ _ HP) as (_ & _ & PS). unfold nk. rewrite <- HS. clear - PS.
      induction PS as [|n l Hn Hl IH]; [constructor|]. cbn [length repeat]. apply valid_index_cons. split; [lia|auto]. }
    split.
    - unfold general_weight. rewrite E1. cbn [rbind]. pose proof (sub_whole Pw Hw) as Ew. rewrite false_map in Ew.
      destruct (@sub_broadcast R Pw wr (repeat false (length (p_shape Pw))) Hw (Lm _ _ _ (repeat_length _ _)) (repeat_length _ _)) with
        (dt := dtw) (rg := rgw) (param := weight) (idx := j :: i :: s) (v := u) as (t & Et & Tt); auto.
      + rewrite Es. cbn [length repeat]. unfold wr. constructor; [auto|]. constructor; [auto|]. rewrite HS. apply le_masks.
      + intros v Hv. now apply HH3.
      + apply mask_false.
      + exists t. rewrite Ew in Et. split; [exact Et|]. eapply teq_trans; [exact Tt|]. cbn [unmask map2 wr]. fold (unmask (repeat true nk) s).
        rewrite unmask_true by auto. apply HH1. apply wk_worker; auto. rewrite Es. repeat (apply valid_index_cons; split; [lia|]). exact Hz.
    - unfold general_bias. rewrite E2, E3. cbn [rbind].
      assert (Ha : forall m, length m = length (p_shape Pw) -> (is_active (p_ranks (sub_part m Pw)) u = mask_zero m (j :: i :: s))).
      { intros m Hm. apply Bool.eq_iff_eq_true. rewrite is_active_spec, sub_active by auto. split.
        - intros (idx & Hi' & Hz'). now rewrite (worker_at_fun _ _ _ _ Hw Hi' Hu) in Hz'.
        - intros Hz'. exists (j :: i :: s). auto. }
      rewrite !Ha by (apply Lm, repeat_length). unfold bu at 1, br at 1. rewrite !mask_cons, mask_false. cbn [andb].
      rewrite andb_true_r. destruct (Z.eqb_spec i 0) as [->|Hi0].
      + cbn [andb orb]. destruct bias as [bb|]; cbn [has_bias bias_block]; [|exists None; auto].
        destruct (@sub_broadcast R Pw br bu Hw (Lm _ _ _ (repeat_length _ _)) (Lm _ _ _ (repeat_length _ _))) with
          (dt := dtb) (rg := rgb) (param := bias_of) (idx := j :: 0 :: s) (v := u) as (t & Et & Tt); auto.
        * unfold br, bu. constructor; [auto|]. constructor; [auto|]. apply le_masks.
        * intros v Hv. now apply HH3.
        * unfold bu. rewrite !mask_cons, mask_false. reflexivity.
        * rewrite Et. cbn [rbind]. exists (Some t). split; [reflexivity|]. eapply teq_trans; [exact Tt|]. cbn [unmask map2 br].
          fold (unmask (repeat true nk) s). rewrite unmask_true by auto. apply HH2. apply wk_worker; auto. rewrite Es.
          repeat (apply valid_index_cons; split; [lia|]). exact Hz.
      + cbn [andb orb]. exists None. auto.
  Qed.
End Params.

(** ** The layer *)

Lemma C33_general_proof : C33_general_statement plain within.
Proof.
  intros R world Px Py Pw co ci S L w groups cin cout W bias X Y weight bias_of x dt dt' dtw dtb rg rg' rgw rgb HL HE HH HG HX HO HF shape arg plan layer.
  pose proof (k_parts _ _ _ _ _ _ _ _ _ _ _ _ _ _ HL) as HP.
  pose proof HL as (_ & HS & Hw & Hco & Hci & Hg & Hgo & Hgi & HW & HB & (b & xs & EX & Lxs & Nxs) & HY).
  pose proof HY as (b0 & c & xs' & ys & EX' & EY & Hcnt & Hb & Hc & Hys & _). rewrite EX in EX'. inversion EX'; subst b0 c xs'. clear EX'.
  assert (HSk : GeneralConv = ChannelConv -> S = repeat 1 (length S)) by discriminate.
  pose proof (c_pos _ _ _ _ _ _ HP) as (P1 & P2 & P3).
  split; [exact (k_weights _ _ _ _ _ _ _ _ _ _ _ _ _ _ HL HE b xs ys Lxs)|].
  split; [exact (halo_started world Px L w rzero X x HG HX)|].
  intros pre init eager g Hpre Hend.
  destruct (Nat.eqb_spec (length (p_ranks Pw)) 1) as [E1|E1].
  - pose proof HE as [_ E4]. destruct (E4 E1) as [E5 E6]. split; [|split].
    + intros idx d Hd. pose proof (worker_at_In _ _ _ Hd) as Hin. unfold general_conv_forward. rewrite active_test by auto.
      rewrite (c_recast_x Px Py Pw co ci S HP GeneralConv d HSk), (c_recast_y Px Py Pw co ci S HP GeneralConv d HSk). cbn [rbind].
      unfold serial. rewrite (proj2 (is_active_spec (p_ranks Pw) d)) by now rewrite <- E6. rewrite E1. cbn [Nat.eqb andb].
      apply (serial_ok Px Py Pw co ci S w groups cin cout W bias X Y HL HE E1 weight bias_of HH idx d (x d) Hd).
      assert (Hin' : In d (p_ranks Px)) by (rewrite E5, <- E6; auto).
      destruct (worker_at_exists Px d (c_px _ _ _ _ _ _ HP) Hin') as [idx' Hd']. destruct HX as [ES HX].
      eapply teq_trans; [apply (HX idx' d Hd')|].
      destruct (one_shape Px Py Pw co ci S w groups cin cout W bias X Y HL E1 weight bias_of HH) as (Q1 & Q2 & ES').
      destruct HG as (_ & _ & _ & _ & EL & _).
      apply single_block; [|rewrite EL; apply Hd'|exact ES].
      rewrite EL, (c_sx _ _ _ _ _ _ HP), Q2. constructor; auto. constructor; auto.
      rewrite ES'. apply Forall_forall. intros z Hz. now apply repeat_spec in Hz.
    + intros v Hv Hn. exfalso. apply Hn. rewrite E6. destruct Hv; auto. congruence.
    + intros v H1 H2 H3. unfold general_conv_forward. now rewrite inactive_test.
  - assert (Hwi : within L w (b :: cin :: ys)).
    { assert (A : (1 < length (p_ranks Pw))%nat).
      { destruct (c_pw _ _ _ _ _ _ HP) as (_ & _ & Hp & E). pose proof (zprod_pos _ Hp). lia. }
      pose proof (HF A) as A'. unfold out_counts in A'. rewrite EX, EY in A'. exact A'. }
    pose proof (fun idx v Hv => needed_windows world Px L w rzero X x HG b cin xs ys EX Hcnt Hb Hc Hys HX Hwi pre init eager g idx v Hpre Hend Hv) as Hnd.
    cbv zeta in Hnd. fold shape in Hnd.
    apply delivers_ext with (x' := general_input w Px shape x (halo_result g))
      (y' := work_forward Px Pw (y_part Py co S) false false false dt dt' rg rg'
        (general_local Pw w groups (has_bias bias) dtw dtb rgw rgb weight bias_of) (general_input w Px shape x (halo_result g))).
    + intros v Hv. unfold general_conv_forward. rewrite active_test by auto.
      rewrite (c_recast_x Px Py Pw co ci S HP GeneralConv v HSk), (c_recast_y Px Py Pw co ci S HP GeneralConv v HSk). cbn [rbind].
      unfold partner_missing, serial. apply Nat.eqb_neq in E1. rewrite E1, !andb_false_r. reflexivity.
    + intros v H1 H2 H3. unfold general_conv_forward. now rewrite inactive_test.
    + apply (k_combine Px Py Pw co ci S w groups cin cout W bias X Y HL HE b xs ys EX Lxs EY); auto.
      * intros v Hv. destruct (worker_at_exists Px v (c_px _ _ _ _ _ _ HP) Hv) as [idx Hi].
        destruct (Hnd idx v Hi) as (es & Es & _ & _ & Ns & _). split; [exact Ns|]. now rewrite Es.
      * intros v Hv Hn. unfold general_input, feature_setup. apply index_in_none in Hn as Hn'. rewrite Hn'. now apply HO.
      * intros j i s u v t Hu Hv Hj Hi Hs Ht. unfold general_local.
        destruct (q_params Px Py Pw co ci S HP w cout W bias weight bias_of HS HH dtw dtb rgw rgb j i s u Hu) as [(wt & Ew & Tw) (bt & Eb & Tb)].
        rewrite Ew, Eb. cbn [rbind].
        destruct (Hnd _ _ Hv) as (es & Es & Le & Oe & Ns & Ve). unfold window_read in Ve. rewrite (c_sx _ _ _ _ _ _ HP) in Es, Oe, Ve.
        cbn [nth Nat.add] in Es, Oe, Ve. rewrite unit_sub in Es, Ve. rewrite start1_0 in Ve by lia.
        apply (sliding_part Px Py Pw co ci S w groups cin cout W bias X Y HL HE b xs ys Lxs j i wt bt Hj Hi Tw Tb s es
                 (general_input w Px shape x (halo_result g) v) Es Le Oe); auto.
Qed.

Theorem C33_general_conv_partial : C33_general_statement plain within.
Proof. exact C33_general_proof. Qed.

(** The common layers of C30. *)
Theorem C33_general_common_partial : C33_general_statement plain common.
Proof.
  intros R world Px Py Pw co ci S L w groups cin cout W bias X Y weight bias_of x dt dt' dtw dtb rg rg' rgw rgb HL HE HH HG HX HO HF.
  apply (C33_general_proof R world Px Py Pw co ci S L w groups cin cout W bias X Y weight bias_of x dt dt' dtw dtb rg rg' rgw rgb HL HE HH HG HX HO).
  intros H. assert (HY : is_sequential (conv_kernel w cout groups W bias) (fun _ => cout) rzero w X Y) by apply HL.
  exact (common_all _ _ _ _ _ _ _ _ _ _ _ HG HY HX (HF H)).
Qed.

(** Three input channels and eight entries over 2 x 2 workers, four output channels
    over two: eight workers hold the work, kernel 3, padding 1. *)
Definition gc_x : part := mkpart 0 [0; 1; 2; 3] [1; 2; 2].
Definition gc_y : part := mkpart 0 [4; 5; 8; 0] [1; 2; 2].
Definition gc_w : part := mkpart 0 [0; 1; 2; 3; 4; 5; 6; 7] [2; 2; 2].
Definition gc_world : list Z := [0; 1; 2; 3; 4; 5; 6; 7; 8].
Definition gc_win : window := mkwindow [3] [1] [1] [1].
Definition gc_L : layout := [[1]; [2; 1]; [4; 4]].
Definition gc_X : tensor Zring := @mkt Zring [1; 3; 8] (fun i => row_major [1; 3; 8] i).
Definition gc_W : tensor Zring := @mkt Zring [4; 3; 3] (fun i => 1 + row_major [4; 3; 3] i).
Definition gc_b : tensor Zring := @mkt Zring [4] (fun i => 10000 * (1 + nth 0 i 0)).
Definition gc_Y : tensor Zring := seq_conv gc_win 3 4 1 gc_W (Some gc_b) gc_X [1; 4; 8].
Definition gc_in (v : Z) : tensor Zring :=
  match index_in gc_x v with Some idx => block gc_L idx gc_X | None => @mkt Zring [0] (fun _ => 0) end.
Definition gc_weight (v : Z) : tensor Zring :=
  match index_in gc_w v with
  | Some [j; i; 0] => block (balanced [4; 3; 3] [2; 2; 1]) [j; i; 0] gc_W
  | _ => @mkt Zring [0] (fun _ => 0) end.
Definition gc_bias (v : Z) : tensor Zring :=
  match index_in gc_w v with Some [j; 0; 0] => block (balanced [4] [2]) [j] gc_b | _ => @mkt Zring [0] (fun _ => 0) end.
Definition gc_shape (v : Z) : list Z := tshape (gc_in v).
Definition gc_arg := halo_argument gc_x gc_win (0 : car Zring) gc_shape gc_in.
Definition gc_plan := halo_plan gc_x gc_win gc_shape.
Definition gc_run (v : Z) : tensor Zring :=
  last (h_hist (sync_rounds (history_rounds gc_x (fun v => tshape (gc_arg v)) (fun v => u_recv (gc_plan v))
                               (fun v => u_send (gc_plan v)) [HForward gc_arg]) cv_zero v)) (@mkt Zring [] (fun _ => 0)).
Definition gc_out (v : Z) : result (tensor Zring) :=
  general_conv_forward gc_x gc_y gc_w gc_win 1 true (fun _ => 0) (fun _ => 0) (fun _ => 0) (fun _ => 0)
    (fun _ => true) (fun _ => true) (fun _ => true) (fun _ => true) gc_weight gc_bias gc_shape gc_in gc_run v.

Example C33_general_example :
  conv_layer gc_x gc_y gc_w 2 2 [2] gc_win 1 3 4 gc_W (Some gc_b) gc_X gc_Y /\
  plain 1 gc_x gc_y gc_w /\
  conv_parameters_held gc_w 2 2 gc_win 4 gc_W (Some gc_b) gc_weight gc_bias /\
  feature_given gc_world gc_x gc_L gc_win /\
  holds_blocks gc_x gc_L gc_X gc_in /\ others_pass gc_x gc_y gc_w gc_in /\
  within gc_L gc_win (out_counts gc_X gc_Y) /\
  map (fun v => tshape (val (gc_out v))) [0; 3; 4; 5; 8] = [[1; 2; 4]; [1; 0]; [1; 2; 4]; [1; 2; 4]; [1; 2; 4]] /\
  map (tat (val (gc_out 5))) (indices [1; 2; 4]) =
  map (tat gc_Y) [[0; 0; 4]; [0; 0; 5]; [0; 0; 6]; [0; 0; 7]; [0; 1; 4]; [0; 1; 5]; [0; 1; 6]; [0; 1; 7]] /\
  map (tat (val (gc_out 8))) (indices [1; 2; 4]) =
  map (tat gc_Y) [[0; 2; 0]; [0; 2; 1]; [0; 2; 2]; [0; 2; 3]; [0; 3; 0]; [0; 3; 1]; [0; 3; 2]; [0; 3; 3]] /\
  tat gc_Y [0; 2; 1] = 32013.
Proof.
  split; [|split; [|split; [|split; [|split; [|split; [|split]]]]]].
  - split.
    { split; [part_ok_tac|]. split; [part_ok_tac|]. split; [part_ok_tac|]. repeat split. }
    split; [reflexivity|]. split; [repeat split; repeat constructor; cbn; lia|]. do 3 (split; [lia|]). split; [now exists 4|]. split; [now exists 3|].
    split; [reflexivity|]. split; [reflexivity|]. split; [exists 1, [8]; split; [reflexivity|]; split; [reflexivity|repeat constructor; lia]|].
    exists 1, 3, [8], [8]. do 2 (split; [reflexivity|]). split.
    { split; [reflexivity|]. intros [|j] Hj; [|cbn in Hj; lia]. cbn [nth w_kernel w_stride w_padding w_dilation gc_win].
      split; [lia|]. intros o Ho. unfold window_fits. lia. }
    do 2 (split; [lia|]). split; [repeat constructor; lia|]. intros b' c' o Ho. reflexivity.
  - split; [now left|]. discriminate.
  - split; [|split].
    + intros j i v Hv. unfold gc_weight. apply index_in_spec in Hv; [rewrite Hv|part_ok_tac]. apply teq_refl.
    + intros j v Hv. unfold gc_bias. apply index_in_spec in Hv; [rewrite Hv|part_ok_tac]. apply teq_refl.
    + intros v Hv. cbn in Hv. decompose [or] Hv; subst; try contradiction; split; vm_compute; repeat constructor; discriminate.
  - split; [repeat constructor; simpl; lia|]. split; [cbn; tauto|]. split; [part_ok_tac|].
    split; [repeat constructor; lia|]. split; [reflexivity|]. split; [reflexivity|]. repeat split; repeat constructor; cbn; lia.
  - split; [reflexivity|]. intros idx v Hv. unfold gc_in. apply index_in_spec in Hv; [rewrite Hv|part_ok_tac]. apply teq_refl.
  - intros v _ Hn. unfold gc_in. apply index_in_none in Hn. rewrite Hn. split; [repeat constructor; lia|discriminate].
  - intros [|[|[|j]]] Hj; cbn in Hj; [| | |lia].
    + intros [|i] Hi; vm_compute in Hi; [|lia]. repeat split; intros; vm_compute; (reflexivity || discriminate).
    + intros [|[|i]] Hi; vm_compute in Hi; [| |lia]; repeat split; intros; vm_compute; (reflexivity || discriminate).
    + intros [|[|i]] Hi; vm_compute in Hi; [| |lia]; repeat split; intros; vm_compute; (reflexivity || discriminate).
  - vm_compute. repeat split; reflexivity.
Qed.

Print Assumptions C33_general_conv_partial.
Print Assumptions C33_general_common_partial.
