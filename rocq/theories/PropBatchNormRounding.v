(** Rounding errors of the statistics of batch normalisation: C83. *)

From Coq Require Import Reals Lra.
From Flocq Require Import Core IEEE754.BinarySingleNaN.
From Verif Require Import Prelude SpecIndex SpecLayout SpecPartition ModelPartition ProofDecomposition Ring Tensor ModelRepartition ProofRepartition PropRepartition ModelBatchNorm SpecBatchNorm
  ProofBatchNorm PropBatchNorm ProofConv ModelReduce SpecSum ProofReduce PropReduce SpecRounding PropRounding PropLossRounding ModelBatchNormReduce PropBatchNormReduce.

Open Scope Z_scope.

(** Subtraction and squares rounded to nearest even. *)
Definition ieee_square (F : format) (B : bnops (words F)) : Prop :=
  (forall a b, decode F (b_sub B a b) = @Bminus (f_prec F) (f_max F) (f_prec_pos F) (f_prec_max F) mode_NE (decode F a) (decode F b)) /\
  (forall a, decode F (b_square B a) = @Bmult (f_prec F) (f_max F) (f_prec_pos F) (f_prec_max F) mode_NE (decode F a) (decode F a)).

(** The exact mean and variance of a channel. *)
Section Exact.
  Variable F : format.
  Variable G : tensor (words F).
  Definition total (f : list Z -> R) (l : list (list Z)) : R := fold_right (fun i s => f i + s)%real 0%real l.
  Definition exact_mean (c : Z) : R :=
    (total (fun i => number F (tat G i)) (channel_entries (tshape G) c) / IZR (channel_volume (tshape G)))%real.
  Definition exact_var (c : Z) : R :=
    (total (fun i => (number F (tat G i) - exact_mean c) ^ 2) (channel_entries (tshape G) c) / IZR (channel_volume (tshape G)))%real.
End Exact.

(** The entries of channel [c], and the squares that the machine adds for it. *)
Definition entry_terms {F : format} (G : tensor (words F)) (c : Z) : list (term (words F)) :=
  map (fun i => Num (tat G i)) (channel_entries (tshape G) c).
Definition square_terms {F : format} (B : bnops (words F)) (G : tensor (words F)) (m : Z -> words F) (c : Z) : list (term (words F)) :=
  map (fun i => Num (b_square B (b_sub B (tat G i) (m c)))) (channel_entries (tshape G) c).

(** The error of the variance, where [e] is that of the mean. *)
Definition variance_error (F : format) (l : list (term (words F))) (n : Z) (var e : R) : R :=
  (quotient_error F l n + ((1 + unit_error F) ^ 3 - 1) * (var + e ^ 2) + tiny_error F + e ^ 2)%real.

Definition C83_statement : Prop :=
  forall (F : format) (M : machine (words F)) (B : bnops (words F)) P num_features cumulative affine track dt rg
    (x : bnexec (words F)) (s : step (words F)) (q : running (words F)) (st : Z -> bnstate (words F)),
  ieee F M -> ieee_division F (b_over B) -> ieee_square F B ->
  part_ok P -> (2 <= length (p_shape P))%nat -> 0 <= num_features ->
  distributes P num_features affine (x_call x) s -> adders_ok M (x_mean x) -> adders_ok M (x_var x) ->
  tracks_by P num_features cumulative q st -> s_training s = true \/ track = false ->
  let G := s_input s in
  let n := channel_volume (tshape G) in
  (* the divisor is exact in the format *)
  0 < n < 2 ^ f_prec F ->
  exists m w : Z -> words F,
    (forall idx v, worker_at P idx v -> exists tm tw st',
       bn_statistics_by B P num_features cumulative track dt rg st x v = Ok (tm, tw, st') /\
       let d := (length (p_shape P) - 2)%nat in
       teq tm (channels d (nth 1 (s_layout s) []) (nth 1 idx 0) m) /\ teq tw (channels d (nth 1 (s_layout s) []) (nth 1 idx 0) w)) /\
    forall c, 0 <= c < num_features ->
      (finite F (m c) -> Forall (finite_term F) (entry_terms G c) /\
         (Rabs (number F (m c) - exact_mean F G c) <= quotient_error F (entry_terms G c) n)%real) /\
      (Forall (finite_term F) (entry_terms G c) -> (sum_abs F (entry_terms G c) + sum_error F (entry_terms G c) < bpow radix2 (f_max F))%real -> finite F (m c)) /\
      (finite F (w c) -> finite F (m c) /\
         (Rabs (number F (w c) - exact_var F G c) <=
            variance_error F (square_terms B G m c) n (exact_var F G c) (number F (m c) - exact_mean F G c))%real) /\
      (Forall (finite_term F) (square_terms B G m c) ->
         (sum_abs F (square_terms B G m c) + sum_error F (square_terms B G m c) < bpow radix2 (f_max F))%real -> finite F (w c)).

(** ** Proofs *)

Lemma indices_count s : nonneg_shape s -> Z.of_nat (length (indices s)) = zprod s.
Proof.
  induction s as [|n s IH]; intros H; [reflexivity|]. inversion H as [|? ? Hn Hs]; subst. specialize (IH Hs). cbn [indices zprod fold_right].
  fold (zprod s). rewrite <- IH. rewrite <- (Z2Nat.id n Hn) at 2. rewrite <- (zrange_length n). rewrite <- Nat2Z.inj_mul. f_equal.
  induction (zrange n) as [|a l IHl]; [reflexivity|]. cbn [flat_map length]. rewrite app_length, map_length, IHl. cbn. reflexivity.
Qed.
Lemma channel_count s c : nonneg_shape s -> 0 <= c < nth 1 s 0 -> Z.of_nat (length (channel_entries s c)) = channel_volume s.
Proof.
  intros Hs Hc. destruct s as [|a [|b r]]; cbn [nth] in Hc; try lia. inversion Hs as [|? ? Ha Hs']; subst. inversion Hs' as [|? ? Hb Hr]; subst.
  unfold channel_volume, channel_entries. cbn [nth skipn]. cbn [indices]. rewrite filter_flat_map.
  assert (E : forall k : Z, length (filter (fun i => nth 1 i 0 =? c) (map (cons k) (flat_map (fun j => map (cons j) (indices r)) (zrange b)))) = length (indices r)).
  { intros k. rewrite ProofConv.filter_map, map_length. cbn [nth]. rewrite filter_flat_map.
    rewrite (flat_map_ext _ (fun j => if j =? c then map (cons j) (indices r) else [])).
    - rewrite flat_map_when. assert (F : filter (fun j => j =? c) (zrange b) = [c]).
      { apply Permutation.Permutation_length_1_inv. apply Permutation.NoDup_Permutation; [constructor; [easy|constructor]|apply NoDup_filter, zrange_nodup|].
        intros j. rewrite filter_In, in_zrange, Z.eqb_eq. cbn [In]. split; [intros [<-|[]]; auto|intros [_ ->]; now left]. }
      rewrite F. cbn [flat_map]. now rewrite app_nil_r, map_length.
    - intros j. rewrite ProofConv.filter_map. cbn [nth]. destruct (j =? c); [|induction (indices r) as [|y l IH]; auto].
      f_equal. induction (indices r) as [|y l IH]; cbn [filter]; now rewrite ?IH. }
  rewrite <- (indices_count r Hr). rewrite <- (Z2Nat.id a Ha) at 2. rewrite <- (zrange_length a), <- Nat2Z.inj_mul. f_equal.
  induction (zrange a) as [|k l IH]; [reflexivity|]. cbn [flat_map length]. rewrite app_length, E, IH. reflexivity.
Qed.

Section Totals.
  Open Scope R_scope.
  Lemma total_shift (f : list Z -> R) (m c : R) (l : list (list Z)) :
    total (fun i => (f i - m) ^ 2) l = total (fun i => (f i - c) ^ 2) l + 2 * (c - m) * (total f l - INR (length l) * c) + INR (length l) * (c - m) ^ 2.
  Proof.
    induction l as [|i l IH]; [cbn; ring|]. cbn [total fold_right length]. fold (total (fun i => (f i - m) ^ 2) l) (total (fun i => (f i - c) ^ 2) l) (total f l).
    rewrite IH, S_INR. ring.
  Qed.
  Lemma total_near (f g : list Z -> R) (k t : R) l : (forall i, In i l -> Rabs (f i - g i) <= k * g i + t) ->
    Rabs (total f l - total g l) <= k * total g l + INR (length l) * t.
  Proof.
    induction l as [|i l IH]; intros H; [cbn; rewrite Rminus_0_r, Rabs_R0; lra|].
    cbn [total fold_right length]. fold (total f l) (total g l). rewrite S_INR. pose proof (H i (or_introl eq_refl)) as H1.
    assert (H2 : Rabs (total f l - total g l) <= k * total g l + INR (length l) * t) by (apply IH; intros j Hj; apply H; now right).
    replace (f i + total f l - (g i + total g l)) with ((f i - g i) + (total f l - total g l)) by ring.
    eapply Rle_trans; [apply Rabs_triang|]. lra.
  Qed.
End Totals.

Section Squares.
  Variable F : format.
  Variable M : machine (words F).
  Variable B : bnops (words F).
  Hypothesis HM : ieee F M.
  Hypothesis HB : ieee_square F B.
  Let rp : Prec_gt_0 (f_prec F) := f_prec_pos F.
  Let rm : Prec_lt_emax (f_prec F) (f_max F) := f_prec_max F.
  Existing Instance rp. Existing Instance rm.
  Notation fx := (SpecFloat.fexp (f_prec F) (f_max F)).
  Notation rnd := (round radix2 fx ZnearestE).
  Notation num := (number F).

  Lemma sub_finite a b : finite F (b_sub B a b) -> finite F a /\ finite F b /\ num (b_sub B a b) = rnd (num a - num b)%real.
  Proof.
    destruct HB as [HS _]. unfold finite, number. rewrite HS. intros H.
    assert (K : is_finite (decode F a) = true /\ is_finite (decode F b) = true).
    { destruct (decode F a) as [s|s| |s m e Hb], (decode F b) as [s'|s'| |s' m' e' Hb']; cbn in H |- *; try discriminate; auto.
      destruct (Bool.eqb s (negb s')); discriminate. }
    destruct K as [K1 K2]. split; [exact K1|]. split; [exact K2|].
    pose proof (Bminus_correct (f_prec F) (f_max F) (f_prec_pos F) (f_prec_max F) mode_NE (decode F a) (decode F b) K1 K2) as C.
    destruct (Rlt_bool _ _); [apply C|]. destruct C as [C _]. exfalso. revert H C.
    destruct (Bminus mode_NE (decode F a) (decode F b)); cbn; try discriminate.
    all: unfold binary_overflow; cbn; discriminate.
  Qed.
  Lemma square_finite a : finite F (b_square B a) -> finite F a /\ num (b_square B a) = rnd (num a * num a)%real.
  Proof.
    assert (E : decode F (b_square B a) = decode F (m_mul M a a)) by (destruct HB as [_ ->]; destruct HM as (_ & -> & _); reflexivity).
    intros H. unfold finite in H. rewrite E in H. destruct (mul_finite F M HM a a H) as (H1 & _ & H2). split; [exact H1|].
    unfold number in *. rewrite E. exact H2.
  Qed.

  Open Scope R_scope.
  Notation u := (unit_error F).
  Notation eta := (tiny_error F).

  Lemma square_near a b : finite F (b_square B (b_sub B a b)) -> finite F a /\ finite F b /\
    Rabs (num (b_square B (b_sub B a b)) - (num a - num b) ^ 2) <= ((1 + u) ^ 3 - 1) * (num a - num b) ^ 2 + eta.
  Proof.
    intros H. apply square_finite in H as [H ->]. apply sub_finite in H as (Ha & Hb & ->). split; [exact Ha|]. split; [exact Hb|].
    assert (U : 0 < u) by apply bpow_gt_0. set (D := num a - num b).
    assert (E1 : Rabs (rnd D - D) <= u * Rabs D).
    { unfold D, Rminus. apply (rnd_add F); [apply generic_format_B2R|apply generic_format_opp, generic_format_B2R]. }
    set (d := rnd D) in *. pose proof (rnd_error F (d * d)) as E2. rewrite (Rabs_pos_eq (d * d)) in E2 by apply Rle_0_sqr. set (q := rnd (d * d)) in *. change (round radix2 (SpecFloat.fexp (f_prec F) (f_max F)) ZnearestE (d * d)) with q in E2.
    assert (Ed : Rabs d <= (1 + u) * Rabs D).
    { replace d with (D + (d - D)) by ring. eapply Rle_trans; [apply Rabs_triang|]. lra. }
    assert (P0 : 0 <= Rabs D) by apply Rabs_pos. assert (P1 : 0 <= Rabs d) by apply Rabs_pos.
    assert (D2 : D ^ 2 = Rabs D * Rabs D) by (rewrite <- Rabs_mult, Rabs_pos_eq by apply Rle_0_sqr; ring).
    assert (d2 : d * d = Rabs d * Rabs d) by (rewrite <- Rabs_mult, Rabs_pos_eq by apply Rle_0_sqr; ring).
    assert (E3 : d * d <= (1 + u) ^ 2 * D ^ 2).
    { rewrite d2, D2. replace ((1 + u) ^ 2 * (Rabs D * Rabs D)) with (((1 + u) * Rabs D) * ((1 + u) * Rabs D)) by ring. apply Rmult_le_compat; auto. }
    assert (E4 : Rabs (d * d - D ^ 2) <= (2 * u + u ^ 2) * D ^ 2).
    { replace (d * d - D ^ 2) with ((d - D) * (d + D)) by ring. rewrite Rabs_mult.
      assert (E5 : Rabs (d + D) <= (2 + u) * Rabs D) by (eapply Rle_trans; [apply Rabs_triang|]; clear - Ed P0 U; nra).
      rewrite D2. replace ((2 * u + u ^ 2) * (Rabs D * Rabs D)) with ((u * Rabs D) * ((2 + u) * Rabs D)) by ring.
      apply Rmult_le_compat; auto using Rabs_pos. }
    replace (q - D ^ 2) with ((q - d * d) + (d * d - D ^ 2)) by ring. eapply Rle_trans; [apply Rabs_triang|].
    assert (E6 : u * (d * d) <= u * ((1 + u) ^ 2 * D ^ 2)) by (apply Rmult_le_compat_l; lra).
    replace (((1 + u) ^ 3 - 1) * D ^ 2) with (u * ((1 + u) ^ 2 * D ^ 2) + (2 * u + u ^ 2) * D ^ 2) by ring. eapply Rle_trans; [apply Rplus_le_compat; [exact E2|exact E4]|]. lra.
  Qed.
End Squares.

Lemma sum_number_total (F : format) (f : list Z -> words F) l : sum_number F (map (fun i => Num (f i)) l) = total (fun i => number F (f i)) l.
Proof. induction l as [|i l IH]; [reflexivity|]. cbn [map sum_number fold_right total term_number]. f_equal. exact IH. Qed.

Lemma C83_proof : C83_statement.
Proof.
  intros F M B P num_features cumulative affine track dt rg x s q st HM HV HS HP LP2 Hnf Hc Hm Hw Hst Ht G n Hn.
  destruct (statistics_by M B P num_features cumulative affine track dt rg HP LP2 x s q st Hc Hm Hw Hst) as (m & w & K1 & K2).
  assert (E : negb (s_training s) && track = false) by (destruct Ht as [-> | ->]; [reflexivity|apply andb_false_r]).
  rewrite E in K1. destruct K1 as [M1 W1]. exists m, w. pose proof Hc as (_ & HF & HB & _). pose proof HF as (HL & HW & He). split.
  { intros idx v Hv. destruct (K2 idx v Hv) as (tm & tw & st' & E1 & Q1 & Q2 & _). exists tm, tw, st'. cbv zeta. rewrite He. auto. }
  intros c Hcc. assert (Hcc' : 0 <= c < nth 1 (tshape G) 0).
  { unfold G. rewrite (proj1 HB), (fits_channels P num_features dt rg HP LP2 _ HF). exact Hcc. }
  destruct (M1 c Hcc') as (sm & Em & Vm). destruct (W1 c Hcc') as (sw & Ew & Vw). cbn [tshape tat] in Ew, Vw. fold G in Em, Vm, Ew, Vw. fold n in Vm, Vw.
  assert (Es : map (fun i => Num (b_square B (b_sub B (tat G i) (m (nth 1 i 0))))) (channel_entries (tshape G) c) = square_terms B G m c).
  { apply map_ext_in. intros i Hi. unfold channel_entries in Hi. apply filter_In in Hi as [_ Hi]. apply Z.eqb_eq in Hi. now rewrite Hi. }
  rewrite Es in Ew. clear Es.
  destruct (quotient_near F M _ _ sm n HM HV Hn Em) as [A1 A2]. destruct (quotient_near F M _ _ sw n HM HV Hn Ew) as [B1 B2].
  rewrite <- Vm in A1, A2. rewrite <- Vw in B1, B2. fold (entry_terms G c) in A1, A2.
  assert (Hlen : Z.of_nat (length (channel_entries (tshape G) c)) = n).
  { apply channel_count; [|exact Hcc']. unfold G. rewrite (proj1 HB). now apply layout_shape_nonneg. }
  assert (HI : INR (length (channel_entries (tshape G) c)) = IZR n) by (rewrite INR_IZR_INZ, Hlen; reflexivity).
  split; [|split; [exact A2|split; [|exact B2]]].
  - intros H. destruct (A1 H) as [Q1 Q2]. split; [exact Q1|]. unfold entry_terms in Q2 at 1. rewrite sum_number_total in Q2. exact Q2.
  - intros H. destruct (B1 H) as [Q1 Q2]. unfold square_terms in Q2 at 1. rewrite sum_number_total in Q2.
    assert (Sq : forall i, In i (channel_entries (tshape G) c) -> finite F (m c) /\
      (Rabs (number F (b_square B (b_sub B (tat G i) (m c))) - (number F (tat G i) - number F (m c)) ^ 2) <=
         ((1 + unit_error F) ^ 3 - 1) * (number F (tat G i) - number F (m c)) ^ 2 + tiny_error F)%real).
    { intros i Hi. rewrite Forall_forall in Q1. assert (Hf : finite F (b_square B (b_sub B (tat G i) (m c)))).
      { apply (Q1 (Num (b_square B (b_sub B (tat G i) (m c))))). unfold square_terms. apply in_map_iff. eauto. }
      destruct (square_near F M B HM HS _ _ Hf) as (_ & H1 & H2). auto. }
    split.
    { destruct (channel_entries (tshape G) c) as [|i l] eqn:El; [cbn in Hlen; lia|]. apply (Sq i). now left. }
    pose proof (total_near _ _ _ _ _ (fun i Hi => proj2 (Sq i Hi))) as T1. rewrite HI in T1.
    pose proof (total_shift (fun i => number F (tat G i)) (number F (m c)) (exact_mean F G c) (channel_entries (tshape G) c)) as T2. rewrite HI in T2.
    assert (Hpos : (0 < IZR n)%real) by (apply IZR_lt; lia).
    assert (T3 : (total (fun i => number F (tat G i)) (channel_entries (tshape G) c) - IZR n * exact_mean F G c = 0)%real).
    { unfold exact_mean. fold n. field. lra. }
    rewrite T3 in T2. unfold variance_error.
    assert (T4 : exact_var F G c = (total (fun i => (number F (tat G i) - exact_mean F G c) ^ 2) (channel_entries (tshape G) c) / IZR n)%real) by reflexivity.
    set (V := exact_var F G c) in *. set (mu := exact_mean F G c) in *. set (e := (number F (m c) - mu)%real).
    set (S1 := total (fun i => number F (b_square B (b_sub B (tat G i) (m c)))) (channel_entries (tshape G) c)) in *.
    set (S2 := total (fun i => ((number F (tat G i) - number F (m c)) ^ 2)%real) (channel_entries (tshape G) c)) in *.
    set (S3 := total (fun i => ((number F (tat G i) - mu) ^ 2)%real) (channel_entries (tshape G) c)) in *.
    assert (E2 : (S2 / IZR n = V + e ^ 2)%real) by (rewrite T2, T4; unfold e; field; lra).
    assert (E1 : (Rabs (S1 / IZR n - S2 / IZR n) <= ((1 + unit_error F) ^ 3 - 1) * (V + e ^ 2) + tiny_error F)%real).
    { replace (S1 / IZR n - S2 / IZR n)%real with ((S1 - S2) * / IZR n)%real by (field; lra).
      rewrite Rabs_mult, (Rabs_pos_eq (/ IZR n)) by (left; now apply Rinv_0_lt_compat).
      replace (((1 + unit_error F) ^ 3 - 1) * (V + e ^ 2) + tiny_error F)%real with ((((1 + unit_error F) ^ 3 - 1) * S2 + IZR n * tiny_error F) * / IZR n)%real
        by (rewrite <- E2; field; lra).
      apply Rmult_le_compat_r; [left; now apply Rinv_0_lt_compat|exact T1]. }
    replace (number F (w c) - V)%real with ((number F (w c) - S1 / IZR n) + (S1 / IZR n - S2 / IZR n) + e ^ 2)%real by lra.
    eapply Rle_trans; [apply Rabs_triang|]. rewrite (Rabs_pos_eq (e ^ 2)) by (cbn; nra).
    pose proof (Rabs_triang (number F (w c) - S1 / IZR n) (S1 / IZR n - S2 / IZR n)). lra.
Qed.

Theorem C83_statistics : C83_statement.
Proof. exact C83_proof. Qed.

(** ** Example: the first call of C82's example in half precision *)
Definition hb_M : machine (words half) := float_machine half.
Definition hb_ops : bnops (words half) :=
  @mkops (words half) (m_add hb_M)
    (fun a b => encode half (@Bminus (f_prec half) (f_max half) (f_prec_pos half) (f_prec_max half) mode_NE (decode half a) (decode half b)))
    (m_mul hb_M)
    (fun a b => encode half (@Bdiv (f_prec half) (f_max half) (f_prec_pos half) (f_prec_max half) mode_NE (decode half a) (decode half b)))
    (fun a => m_mul hb_M a a)
    (fun a => encode half (@Bsqrt (f_prec half) (f_max half) (f_prec_pos half) (f_prec_max half) mode_NE (decode half a)))
    hl_divide (fun n a => m_mul hb_M (hz n) a) (fun a => m_add hb_M a (hz 1)) (fun a => hl_divide a 2) (fun a => hl_divide a 2) (hz 1).
Definition hb_sum (v : Z) (k : nat) (t : tensor (words half)) : result (tensor (words half)) :=
  if Nat.ltb k (length (tshape t))
  then Ok (@mkt (words half) (upd k 1 (tshape t))
             (fun i => alternate_terms hb_M v (map (fun a => Num (tat t (upd k a i))) (zrange (nth k (tshape t) 0)))))
  else Raise ErrTorch.
Definition hb_adders : adders (words half) := mkadders (R := words half) (alternate hb_M) hb_sum.
Definition hb_gamma (c : Z) : words half := hz (c + 5).
Definition hb_step : step (words half) := mkstep true (hmap (br_G 3 2)) hb_gamma hb_gamma [[2; 1]; [2; 1]].
Definition hb_exec : bnexec (words half) :=
  mkexec (mkcall true (give exP (s_layout hb_step) (s_input hb_step)) (give_channels exP 3 hb_gamma) (give_channels exP 3 hb_gamma)) hb_adders hb_adders.

Definition hb_bits (t : tensor (words half)) : list Z * list Z := (tshape t, map (fun i => hf_bits (tat t i)) (indices (tshape t))).
Definition hb_stats (v : Z) :=
  match bn_statistics_by hb_ops exP 3 true true (fun _ => 0) (fun _ => false) (bn_start_by hb_ops exP 3) hb_exec v with
  | Ok (m, w, _) => Some (hb_bits m, hb_bits w)
  | Raise _ => None
  end.

(** Channel 2 has the mean 108.33 and the variance 5488.9 on workers 1 and 0; 0x56c5
    is 108.3125 and 0x6d5c is 5488. *)
Example C83_example :
  ieee half hb_M /\ ieee_division half (b_over hb_ops) /\ ieee_square half hb_ops /\ part_ok exP /\
  distributes exP 3 true (x_call hb_exec) hb_step /\ adders_ok hb_M hb_adders /\
  tracks_by exP 3 true (fresh_by hb_ops) (bn_start_by hb_ops exP 3) /\
  channel_volume (tshape (s_input hb_step)) = 3 /\ 3 < 2 ^ f_prec half /\
  map hb_stats [3; 1; 2; 0] =
    [Some (([1; 2], [0x547b; 0x57b5]), ([1; 2], [0x68c3; 0x6c36])); Some (([1; 1], [0x56c5]), ([1; 1], [0x6d5c]));
     Some (([1; 2], [0x547b; 0x57b5]), ([1; 2], [0x68c3; 0x6c36])); Some (([1; 1], [0x56c5]), ([1; 1], [0x6d5c]))].
Proof.
  split; [apply float_machine_ieee|]. split; [intros a n; apply decode_encode|].
  split; [split; [intros a b|intros a]; apply decode_encode|]. split; [exact exP_ok|].
  split.
  { split; [reflexivity|]. split; [split; [repeat constructor; lia|]; split; reflexivity|].
    split; [apply give_blocks; [exact exP_ok|reflexivity]|]. intros _. split; apply give_parameter; try exact exP_ok; cbn; lia. }
  split.
  { split; [apply alternate_adds|]. intros v k t _ Hk. cbn [a_sum hb_adders]. unfold hb_sum. destruct (Nat.ltb_spec k (length (tshape t))) as [_|]; [|lia].
    eexists. split; [reflexivity|]. split; [reflexivity|]. intros i _. cbn [tat]. apply alternate_terms_ok. }
  split.
  { intros idx v Hv. destruct (start_tracks (words half) exP 3 None exP_ok ltac:(cbn; lia) ltac:(lia) idx v Hv) as (T1 & [T2 _] & T3).
    split; [exact T1|]. split; [|auto]. split; [exact T2|]. intros i _. reflexivity. }
  split; [reflexivity|]. split; [vm_compute; reflexivity|]. vm_compute. reflexivity.
Qed.

Print Assumptions C83_statistics.
