(** Rounding errors of distributed losses: C81. *)

From Coq Require Import Reals Lra.
From Flocq Require Import Core IEEE754.BinarySingleNaN.
From Verif Require Import Prelude SpecIndex SpecLayout SpecPartition ModelPartition Ring Tensor ModelRepartition ProofRepartition PropRepartition ModelConv ProofConv PropBatchNorm ModelLoss PropLoss ModelReduce SpecSum ProofReduce PropReduce
  SpecRounding PropRounding ModelLossReduce PropLossReduce.

Open Scope Z_scope.

(** Division by an integer, which is converted to the format first. *)
Definition ieee_division (F : format) (divide : words F -> Z -> words F) : Prop :=
  forall a n, decode F (divide a n) =
    @Bdiv (f_prec F) (f_max F) (f_prec_pos F) (f_prec_max F) mode_NE (decode F a)
      (binary_normalize (f_prec F) (f_max F) (f_prec_pos F) (f_prec_max F) mode_NE n 0 false).

(** The error of a sum of [l] divided by [n]. *)
Definition quotient_error (F : format) (l : list (term (words F))) (n : Z) : R :=
  ((1 + unit_error F) * (sum_error F l / IZR n) + unit_error F * Rabs (sum_number F l / IZR n) + tiny_error F)%real.

Definition C81_statement : Prop :=
  forall (F : format) (M : machine (words F)) red torch f divide P kl r dt rg L (G T : tensor (words F)) (x t : Z -> tensor (words F)),
  ieee F M -> ieee_division F divide -> adds M red -> torch_loss_by M f torch -> loss_data P L G T x t -> accepts kl r = true ->
  (r = RBatchMean -> p_shape P <> []) -> r <> RNone ->
  let n := loss_divisor r G in
  let l := loss_terms f G T in
  (* the divisor is exact in the format *)
  0 < n < 2 ^ f_prec F ->
  exists y, loss_forward_by red torch f divide P kl r dt rg x t (nth 0 (p_ranks P) 0) = Ok y /\
    (finite F (tat y []) -> Forall (finite_term F) l /\
       (Rabs (number F (tat y []) - sum_number F l / IZR n) <= quotient_error F l n)%real) /\
    (Forall (finite_term F) l -> (sum_abs F l + sum_error F l < bpow radix2 (f_max F))%real -> finite F (tat y [])).

Section Division.
  Variable F : format.
  Variable divide : words F -> Z -> words F.
  Hypothesis HD : ieee_division F divide.
  Let rp : Prec_gt_0 (f_prec F) := f_prec_pos F.
  Let rm : Prec_lt_emax (f_prec F) (f_max F) := f_prec_max F.
  Existing Instance rp. Existing Instance rm.
  Notation fx := (SpecFloat.fexp (f_prec F) (f_max F)).
  Notation rnd := (round radix2 fx ZnearestE).
  Notation int n := (binary_normalize (f_prec F) (f_max F) (f_prec_pos F) (f_prec_max F) mode_NE n 0 false).

  Lemma int_exact n : 0 < n < 2 ^ f_prec F -> B2R (int n) = IZR n /\ is_finite (int n) = true.
  Proof.
    intros Hn. pose proof (binary_normalize_correct (f_prec F) (f_max F) rp rm mode_NE n 0 false) as C. cbv zeta in C.
    assert (E : F2R (Float radix2 n 0) = IZR n) by (unfold F2R; cbn; ring). rewrite E in C.
    assert (Hp : f_prec F < f_max F) by exact rm. pose proof (f_mantissa_ok F) as Hm.
    assert (Hg : generic_format radix2 fx (IZR n)).
    { rewrite <- E. apply (generic_format_FLT radix2 (SpecFloat.emin (f_prec F) (f_max F)) (f_prec F)).
      exists (Float radix2 n 0); cbn [Fnum Fexp]; [reflexivity| |].
      - rewrite Z.abs_eq by lia. apply Hn.
      - unfold SpecFloat.emin, f_prec in *. lia. }
    assert (Hr : round radix2 fx (round_mode mode_NE) (IZR n) = IZR n) by (apply round_generic; [apply valid_rnd_round_mode|exact Hg]).
    rewrite Hr in C.
    assert (Hlt : (Rabs (IZR n) < bpow radix2 (f_max F))%real).
    { rewrite <- abs_IZR, Z.abs_eq by lia. apply Rlt_le_trans with (IZR (2 ^ f_prec F)); [apply IZR_lt; lia|].
      change 2 with (radix_val radix2). rewrite IZR_Zpower by (unfold f_prec; lia). apply bpow_le. lia. }
    rewrite Rlt_bool_true in C by exact Hlt. split; apply C.
  Qed.

  Lemma divide_correct a n : 0 < n < 2 ^ f_prec F -> (finite F (divide a n) -> finite F a) /\
    (finite F a -> finite F (divide a n) /\ number F (divide a n) = rnd (number F a / IZR n)%real).
  Proof.
    intros Hn. destruct (int_exact n Hn) as [E1 E2].
    assert (Hz : IZR n <> 0%real) by (apply not_0_IZR; lia).
    assert (Hpos : (1 <= IZR n)%real) by (apply IZR_le; lia).
    pose proof (Bdiv_correct (f_prec F) (f_max F) rp rm mode_NE (decode F a) (int n)) as C.
    change (BinarySingleNaN.binary_normalize (f_prec F) (f_max F) rp rm) with (binary_normalize (f_prec F) (f_max F) (f_prec_pos F) (f_prec_max F)) in C.
    rewrite E1 in C. specialize (C Hz).
    assert (Hlt : (Rabs (rnd (B2R (decode F a) / IZR n)) < bpow radix2 (f_max F))%real).
    { apply Rle_lt_trans with (Rabs (B2R (decode F a))); [|apply abs_B2R_lt_emax].
      assert (K : (Rabs (B2R (decode F a) / IZR n) <= Rabs (B2R (decode F a)))%real).
      { unfold Rdiv. rewrite Rabs_mult, (Rabs_pos_eq (/ IZR n)) by (left; apply Rinv_0_lt_compat; lra).
        rewrite <- (Rmult_1_r (Rabs (B2R (decode F a)))) at 2. apply Rmult_le_compat_l; [apply Rabs_pos|].
        rewrite <- Rinv_1. apply Rinv_le; lra. }
      rewrite <- (Rabs_pos_eq (Rabs (B2R (decode F a)))) by apply Rabs_pos. rewrite Rabs_Rabsolu.
      apply abs_round_le_generic; [apply fexp_correct, rp|apply valid_rnd_N| |exact K].
      apply generic_format_abs, generic_format_B2R. }
    change (round_mode mode_NE) with ZnearestE in C. rewrite Rlt_bool_true in C by exact Hlt. destruct C as (C1 & C2 & _).
    unfold finite, number. rewrite HD. split.
    - intros H. rewrite <- C2. exact H.
    - intros H. split; [rewrite <- H; exact C2|exact C1].
  Qed.
End Division.

(** A sum divided by an integer. *)
Lemma quotient_near (F : format) (M : machine (words F)) divide l s n : ieee F M -> ieee_division F divide -> 0 < n < 2 ^ f_prec F -> evaluates M l s ->
  (finite F (divide s n) -> Forall (finite_term F) l /\ (Rabs (number F (divide s n) - sum_number F l / IZR n) <= quotient_error F l n)%real) /\
  (Forall (finite_term F) l -> (sum_abs F l + sum_error F l < bpow radix2 (f_max F))%real -> finite F (divide s n)).
Proof.
  intros HM HV Hn2 S. destruct (divide_correct F divide HV s n Hn2) as [D1 D2].
  destruct (C62_sums F M l s HM S) as [A1 A2].
  assert (Hpos : (0 < IZR n)%real) by (apply IZR_lt; lia). split.
  - intros H. specialize (D1 H). destruct (D2 D1) as [_ ->]. destruct (A1 D1) as [B1 B2]. split; [exact B1|].
    pose proof (rnd_error F (number F s / IZR n)) as R1. unfold quotient_error.
    set (q := round _ _ _ _) in *. set (E1 := sum_error F l) in *. set (S1 := sum_number F l) in *. set (s1 := number F s) in *.
    assert (K : (Rabs (s1 / IZR n - S1 / IZR n) <= E1 / IZR n)%real).
    { replace (s1 / IZR n - S1 / IZR n)%real with ((s1 - S1) * / IZR n)%real by (field; lra).
      rewrite Rabs_mult, (Rabs_pos_eq (/ IZR n)) by (left; now apply Rinv_0_lt_compat). apply Rmult_le_compat_r; [left; now apply Rinv_0_lt_compat|exact B2]. }
    assert (K2 : (Rabs (s1 / IZR n) <= Rabs (S1 / IZR n) + E1 / IZR n)%real).
    { replace (s1 / IZR n)%real with (S1 / IZR n + (s1 / IZR n - S1 / IZR n))%real by ring. eapply Rle_trans; [apply Rabs_triang|]. lra. }
    assert (U : (0 < unit_error F)%real) by apply bpow_gt_0.
    replace (q - S1 / IZR n)%real with ((q - s1 / IZR n) + (s1 / IZR n - S1 / IZR n))%real by ring.
    eapply Rle_trans; [apply Rabs_triang|]. 
    assert (K3 : (unit_error F * Rabs (s1 / IZR n) <= unit_error F * (Rabs (S1 / IZR n) + E1 / IZR n))%real) by (apply Rmult_le_compat_l; lra).
    lra.
  - intros H1 H2. apply D2. now apply A2.
Qed.

Lemma C81_proof : C81_statement.
Proof.
  intros F M red torch f divide P kl r dt rg L G T x t HM HV Hred Htorch HD Hr Hb Hn n l Hn2.
  destruct (proj1 (C80_losses _ M red torch f (fun a _ _ => a) divide P kl r dt rg L G T x t Hred Htorch HD Hr Hb) Hn) as ((y & s & E & _ & V & S) & _).
  exists y. split; [exact E|]. fold n in V. fold l in S. rewrite V. now apply (quotient_near F M).
Qed.

Theorem C81_losses : C81_statement.
Proof. exact C81_proof. Qed.

(** ** Example: the tensors of C80's example in half precision *)
Definition hl_M : machine (words half) := float_machine half.
Definition hl_f (a b : words half) : words half := let d := m_fma hl_M b (hz (-1)) a in m_mul hl_M d d.
Definition hl_divide (a : words half) (n : Z) : words half :=
  encode half (@Bdiv (f_prec half) (f_max half) (f_prec_pos half) (f_prec_max half) mode_NE (decode half a)
    (binary_normalize (f_prec half) (f_max half) (f_prec_pos half) (f_prec_max half) mode_NE n 0 false)).
Definition hl_torch (v : Z) (X Y : tensor (words half)) : result (tensor (words half)) :=
  Ok (@mkt (words half) [] (fun _ => alternate_terms hl_M v (loss_terms hl_f X Y))).
Definition hl_G := hmap lr_G.
Definition hl_T := hmap lr_T.

(** 2005 / 9 = 222.78; 0x5af6 is 222.75. *)
Example C81_example :
  ieee half hl_M /\ ieee_division half hl_divide /\ adds hl_M (alternate hl_M) /\ torch_loss_by hl_M hl_f hl_torch /\
  loss_data lP lL hl_G hl_T (give lP lL hl_G) (give lP lL hl_T) /\ loss_divisor RMean hl_G = 9 /\ 9 < 2 ^ f_prec half /\
  match loss_forward_by (alternate hl_M) hl_torch hl_f hl_divide lP false RMean (fun _ => 0) (fun _ => false) (give lP lL hl_G) (give lP lL hl_T) 7 with
  | Ok y => hf_bits (tat y []) = 0x5af6 /\ finite half (tat y [])
  | Raise _ => False
  end.
Proof.
  split; [apply float_machine_ieee|]. split; [intros a n; apply decode_encode|]. split; [apply alternate_adds|].
  split; [intros v X Y _ _; eexists; split; [reflexivity|]; split; [reflexivity|]; apply alternate_terms_ok|].
  split.
  { assert (HP : part_ok lP) by apply l_data.
    split; [exact HP|]. split; [repeat constructor; lia|]. split; [reflexivity|]. split; apply give_blocks; auto. }
  split; [reflexivity|]. split; [vm_compute; reflexivity|]. vm_compute. split; reflexivity.
Qed.

Print Assumptions C81_losses.
