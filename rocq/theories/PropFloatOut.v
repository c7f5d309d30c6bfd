(** C31: the output extents computed in floating point. *)

From Coq Require Import Reals Lra.
From Flocq Require Import Core Relative.
From Verif Require Import Prelude SpecIndex SpecLayout SpecHalo ModelHaloMixin ModelFloatOut ProofHaloMixin.

Local Open Scope R_scope.

Local Instance prec53 : Prec_gt_0 53. Proof. now red. Qed.

Lemma b64_int (z : Z) : (Z.abs z <= 2 ^ 53)%Z -> b64 (IZR z) = IZR z.
Proof.
  intros H. unfold b64. apply round_generic; [typeclasses eauto|].
  destruct (Z.eq_dec (Z.abs z) (2 ^ 53)) as [E|E].
  - destruct (Z.abs_eq_or_opp z) as [E'|E'].
    + assert (z = 2 ^ 53)%Z as -> by lia. change (IZR (2 ^ 53)) with (bpow radix2 53).
      apply generic_format_bpow. cbv. discriminate.
    + assert (z = - 2 ^ 53)%Z as -> by lia. rewrite opp_IZR. apply generic_format_opp.
      change (IZR (2 ^ 53)) with (bpow radix2 53). apply generic_format_bpow. cbv. discriminate.
  - apply generic_format_FLT. exists (Float radix2 z 0); [|cbn; lia|cbn; lia].
    unfold F2R. cbn. ring.
Qed.

Lemma b64_mono x y : x <= y -> b64 x <= b64 y.
Proof. intros H. unfold b64. apply round_le; auto; typeclasses eauto. Qed.

Lemma b64_error x : Rabs (b64 x - x) <= Rabs x * bpow radix2 (-53) + bpow radix2 (-1074).
Proof.
  destruct (error_N_FLT radix2 (-1074) 53 ltac:(lia) (fun t => negb (Z.even t)) x)
    as (eps & eta & He & Ht & _ & E).
  unfold b64. rewrite E. replace (x * (1 + eps) + eta - x) with (x * eps + eta) by ring.
  eapply Rle_trans; [apply Rabs_triang|]. rewrite Rabs_mult. apply Rplus_le_compat.
  - apply Rmult_le_compat_l; [apply Rabs_pos|]. eapply Rle_trans; [exact He|].
    change (/ 2) with (bpow radix2 (-1)). rewrite <- bpow_plus. apply bpow_le. lia.
  - eapply Rle_trans; [exact Ht|]. pose proof (bpow_ge_0 radix2 (-1074)). lra.
Qed.

Lemma tiny : bpow radix2 (-1074) <= bpow radix2 (-106).
Proof. apply bpow_le. lia. Qed.

(** The quotient and the sum do not reach the next integer. *)
Lemma float_floor (a s : Z) : (0 < s)%Z -> (Z.abs a + s < 2 ^ 52)%Z ->
  Zfloor (b64 (b64 (b64 (IZR a) / b64 (IZR s)) + 1)) = (a / s + 1)%Z.
Proof.
  intros Hs Hb. rewrite !b64_int by lia.
  set (q := (a / s)%Z). set (r := (a mod s)%Z).
  pose proof (Z.div_mod a s ltac:(lia)) as E. fold q r in E.
  pose proof (Z.mod_pos_bound a s Hs) as Hr. fold r in Hr.
  assert (Hsr : 0 < IZR s) by (apply (IZR_lt 0 s); lia).
  assert (Eas : IZR a / IZR s = IZR q + IZR r / IZR s).
  { rewrite E, plus_IZR, mult_IZR. field. lra. }
  assert (Hq : (Z.abs q <= Z.abs a)%Z).
  { destruct (Z_le_gt_dec 0 a).
    - assert (0 <= q)%Z by (apply Z.div_pos; lia). nia.
    - assert (q < 0)%Z by (apply Z.div_lt_upper_bound; lia). nia. }
  assert (Hq0 : IZR q <= IZR a / IZR s).
  { rewrite Eas. assert (0 <= IZR r / IZR s); [|lra].
    apply Rmult_le_pos; [apply (IZR_le 0); lia|]. left. now apply Rinv_0_lt_compat. }
  assert (Hq1 : IZR a / IZR s <= IZR q + 1 - / IZR s).
  { rewrite Eas. assert (IZR r / IZR s <= 1 - / IZR s); [|lra].
    replace (1 - / IZR s) with ((IZR s - 1) / IZR s) by (field; lra).
    apply Rmult_le_compat_r; [left; now apply Rinv_0_lt_compat|].
    rewrite <- minus_IZR. apply IZR_le. lia. }
  set (y := b64 (IZR a / IZR s)).
  assert (Hy0 : IZR q <= y).
  { unfold y. rewrite <- (b64_int q) by lia. now apply b64_mono. }
  apply Zfloor_imp. rewrite !plus_IZR. split.
  - rewrite <- plus_IZR. rewrite <- (b64_int (q + 1)) by lia. apply b64_mono. rewrite plus_IZR. lra.
  - set (u := bpow radix2 (-53)). set (t := bpow radix2 (-1074)).
    assert (Hu : u * IZR (2 ^ 53) = 1).
    { unfold u. change (IZR (2 ^ 53)) with (bpow radix2 53). rewrite <- bpow_plus. reflexivity. }
    assert (Ht : t <= u * u). { unfold t, u. rewrite <- bpow_plus. apply tiny. }
    assert (Hu0 : 0 < u) by apply bpow_gt_0.
    assert (Ht0 : 0 < t) by apply bpow_gt_0.
    assert (Hx : Rabs (IZR a / IZR s) * IZR s = Rabs (IZR a)).
    { unfold Rdiv. rewrite Rabs_mult, (Rabs_right (/ IZR s)); [field; lra|].
      left. now apply Rinv_0_lt_compat. }
    pose proof (b64_error (IZR a / IZR s)) as E1. fold y u t in E1.
    pose proof (b64_error (y + 1)) as E2. fold u t in E2.
    set (X := Rabs (IZR a / IZR s)) in *. assert (HX : 0 <= X) by apply Rabs_pos.
    assert (Hyx : Rabs (y + 1) <= X + (X * u + t) + 1).
    { replace (y + 1) with (IZR a / IZR s + (y - IZR a / IZR s) + 1) by ring.
      eapply Rle_trans; [apply Rabs_triang|]. rewrite Rabs_R1. apply Rplus_le_compat_r.
      eapply Rle_trans; [apply Rabs_triang|]. fold X. lra. }
    assert (Hup : b64 (y + 1) <= IZR q + 1 + 1 - / IZR s + (X * u + t) + (X + (X * u + t) + 1) * u + t).
    { apply Rabs_le_inv in E1. apply Rabs_le_inv in E2.
      assert (Rabs (y + 1) * u <= (X + (X * u + t) + 1) * u) by (apply Rmult_le_compat_r; lra). lra. }
    eapply Rle_lt_trans; [exact Hup|].
    enough ((X * u + t) + (X + (X * u + t) + 1) * u + t < / IZR s) by lra.
    apply Rmult_lt_reg_r with (IZR s); [exact Hsr|]. rewrite Rinv_l by lra.
    assert (HA : Rabs (IZR a) + IZR s <= IZR (2 ^ 52) - 1).
    { rewrite <- abs_IZR, <- plus_IZR, <- minus_IZR. apply IZR_le. lia. }
    assert (Hs1 : 1 <= IZR s) by (apply (IZR_le 1); lia).
    replace (((X * u + t) + (X + (X * u + t) + 1) * u + t) * IZR s)
      with (2 * u * (X * IZR s) + u * u * (X * IZR s) + (2 * t + t * u + u) * IZR s) by ring.
    rewrite Hx. set (A := Rabs (IZR a)) in *. assert (HA0 : 0 <= A) by apply Rabs_pos.
    assert (Hu1 : u <= / 16).
    { unfold u. change (/ 16) with (bpow radix2 (-4)). apply bpow_le. lia. }
    assert (HU : 2 * u * IZR (2 ^ 52) = 1).
    { rewrite <- Hu. change (2 ^ 53)%Z with (2 * 2 ^ 52)%Z. rewrite mult_IZR. ring. }
    assert (Huu : u * u <= u * / 16) by (apply Rmult_le_compat_l; lra).
    assert (HM : 2 * u * (A + IZR s) <= 1 - 2 * u).
    { eapply Rle_trans; [apply Rmult_le_compat_l; [lra|exact HA]|]. lra. }
    assert (u * u * A <= u * / 1).
    { assert (u * A <= 1). { assert (0 <= u * IZR s) by (apply Rmult_le_pos; lra). nra. }
      rewrite Rmult_assoc. apply Rmult_le_compat_l; lra. }
    assert ((2 * t + t * u + u) * IZR s <= 2 * u * IZR s).
    { apply Rmult_le_compat_r; [lra|]. assert (t * u <= u * u * 1) by (apply Rmult_le_compat; lra). lra. }
    lra.
Qed.

(** * C31 *)

Local Open Scope Z_scope.

(** The range in which the computation is exact: the numerator and the stride
    together stay below 2^52. *)
Definition moderate (n k s p d : Z) : Prop :=
  0 < s /\ Z.abs (n + 2 * p - d * (k - 1) - 1) + s < 2 ^ 52.

Definition C31_statement : Prop :=
  forall shape w, (forall j, (j < length shape)%nat ->
      moderate (nth j shape 0) (nth j (w_kernel w) 0) (nth j (w_stride w) 0)
               (nth j (w_padding w) 0) (nth j (w_dilation w) 0)) ->
    length (compute_out_shape_float shape w) = length shape /\
    forall j, (j < length shape)%nat ->
      let n := nth j shape 0 in
      let k := nth j (w_kernel w) 0 in let s := nth j (w_stride w) 0 in
      let p := nth j (w_padding w) 0 in let d := nth j (w_dilation w) 0 in
      let ny := nth j (compute_out_shape_float shape w) 0 in
      ny = (n + 2 * p - d * (k - 1) - 1) / s + 1 /\
      (* the window positions that fit *)
      (forall o, 0 <= o -> (o < ny <-> s * o + d * (k - 1) < n + 2 * p)).

Lemma C31_proof : C31_statement.
Proof.
  intros shape w H. unfold compute_out_shape_float. split; [apply vec_length|].
  intros j Hj. specialize (H j Hj). cbv zeta. rewrite vec_nth by auto.
  destruct H as [Hs Hb]. unfold out_extent_float. rewrite float_floor by auto.
  split; [reflexivity|]. intros o Ho. apply (out_extent_count _ _ _ _ _ o Hs Ho).
Qed.

Theorem C31_output_size_formula : C31_statement.
Proof. exact C31_proof. Qed.
Print Assumptions C31_output_size_formula.

(** A volume of 10 x 2^40 points with a strided, dilated kernel: the quotient in
    the second dimension is not a whole number. *)
Example C31_example :
  let shape := [10; 2 ^ 40] in
  let w := mkwindow [3; 5] [2; 3] [1; 0] [1; 2] in
  (forall j, (j < length shape)%nat ->
      moderate (nth j shape 0) (nth j (w_kernel w) 0) (nth j (w_stride w) 0)
               (nth j (w_padding w) 0) (nth j (w_dilation w) 0)) /\
  compute_out_shape_float shape w = [5; 366503875923].
Proof.
  cbv zeta. split.
  - intros [|[|j]] Hj; [| |simpl in Hj; lia]; split; cbn; lia.
  - unfold compute_out_shape_float, vec. cbn [length seq map nth w_kernel w_stride w_padding w_dilation].
    unfold out_extent_float. rewrite !float_floor by lia. reflexivity.
Qed.
