(** Over the real numbers the gradients of C56 are derivatives. *)

From Coq Require Import Reals Lra.
From Verif Require Import Prelude SpecIndex ProofSlicing Ring Tensor ModelBatchNorm SpecBatchNorm SpecDual PropBatchNormGrad.

Open Scope R_scope.

Definition Rring : CRing := mkCRing R 0 1 Rplus Rmult Rminus Ropp RTheory.
Definition Rarith : arith Rring := mkarith Rring Rdiv sqrt (fun a => if Req_EM_T a 0 then true else false).

(** A value [a] moved by [t] in the direction [a']. *)
Definition moved_value (f f' : Z -> Rring) (t : R) (k : Z) : Rring := f k + t * f' k.
Definition moved (G G' : tensor Rring) (t : R) : tensor Rring := @mkt Rring (tshape G) (fun i => tat G i + t * tat G' i).

(** The loss whose gradient for the output is [dY], up to a constant. *)
Definition loss (eps : R) (affine track training : bool) (q : running Rring) (gamma beta gamma' beta' : Z -> Rring) (G G' dY : tensor Rring) (t : R) : R :=
  inner dY (normalised Rarith eps affine track training (moved_value gamma gamma' t) (moved_value beta beta' t) q (moved G G' t)).

(** The derivative of the loss in every direction.  The running variance is not
    negative when it is used. *)
Definition C56_real_statement : Prop :=
  forall (eps : R) affine track training (q : running Rring) gamma beta (G dY dX : tensor Rring) dgamma dbeta,
  0 < eps -> (training = false -> track = true -> forall k, 0 <= q_var q k) ->
  (2 <= length (tshape G))%nat -> tshape dY = tshape G ->
  bn_gradients Rarith eps affine track training q gamma beta G dY dX dgamma dbeta ->
  forall (G' : tensor Rring) (gamma' beta' : Z -> Rring),
  derivable_pt_lim (loss eps affine track training q gamma beta gamma' beta' G G' dY) 0
    (inner dX G' + @sumf Rring Z (zrange (nth 1 (tshape G) 0%Z)) (fun k => dgamma k * gamma' k + dbeta k * beta' k)).

(** ** Proof *)

(** [a] is the value of [f] at 0 with its derivative. *)
Definition follows (f : R -> R) (a : Dual Rring) : Prop := f 0 = fst a /\ derivable_pt_lim f 0 (snd a).

Lemma derivable_ext f g x l : (forall t, f t = g t) -> derivable_pt_lim f x l -> derivable_pt_lim g x l.
Proof. intros E H eps He. destruct (H eps He) as [del Hd]. exists del. intros h. rewrite <- !E. apply Hd. Qed.

Lemma follows_line a a' : follows (fun t => a + t * a') (a, a').
Proof.
  split; [cbn [fst]; lra|]. cbn [snd].
  assert (H : derivable_pt_lim (fun t => a + t * a') 0 (0 + (1 * a' + 0 * 0))).
  { apply (derivable_pt_lim_plus (fun _ => a) (fun t => t * a')); [apply derivable_pt_lim_const|].
    apply (derivable_pt_lim_mult (fun t => t) (fun _ => a')); [apply derivable_pt_lim_id|apply derivable_pt_lim_const]. }
  replace (0 + (1 * a' + 0 * 0)) with a' in H by lra. exact H.
Qed.
Lemma follows_fixed a : follows (fun _ => a) (fixed (R := Rring) a).
Proof. split; [reflexivity|]. apply derivable_pt_lim_const. Qed.
Lemma follows_add f g a b : follows f a -> follows g b -> follows (fun t => f t + g t) (@radd (Dual Rring) a b).
Proof. intros [F1 F2] [G1 G2]. split; [cbn; now rewrite F1, G1|]. cbn. now apply (derivable_pt_lim_plus f g). Qed.
Lemma follows_sub f g a b : follows f a -> follows g b -> follows (fun t => f t - g t) (@rsub (Dual Rring) a b).
Proof. intros [F1 F2] [G1 G2]. split; [cbn; now rewrite F1, G1|]. cbn. now apply (derivable_pt_lim_minus f g). Qed.
Lemma follows_mul f g a b : follows f a -> follows g b -> follows (fun t => f t * g t) (@rmul (Dual Rring) a b).
Proof.
  destruct a as [a a'], b as [b b']. unfold follows. cbn. intros [F1 F2] [G1 G2]. split; [now rewrite F1, G1|]. subst a b.
  now apply (derivable_pt_lim_mult f g).
Qed.
Lemma follows_over f a c : follows f a -> follows (fun t => f t / c) (adiv (dual_arith Rarith) a (fixed (R := Rring) c)).
Proof.
  destruct a as [a a']. unfold follows. cbn. intros [F1 F2]. split; [now rewrite F1|].
  replace ((a' - a / c * 0) / c) with (a' * / c + f 0 * 0) by (unfold Rdiv; lra).
  apply (derivable_pt_lim_mult f (fun _ => / c)); [exact F2|apply derivable_pt_lim_const].
Qed.
Lemma follows_div f g a b : follows f a -> follows g b -> fst b <> 0 -> follows (fun t => f t / g t) (adiv (dual_arith Rarith) a b).
Proof.
  destruct a as [a a'], b as [b b']. unfold follows. cbn. intros [F1 F2] [G1 G2] Hb. split; [now rewrite F1, G1|]. subst a b.
  replace ((a' - f 0 / g 0 * b') / g 0) with ((a' * g 0 - b' * f 0) / Rsqr (g 0)) by (unfold Rsqr; field; exact Hb).
  now apply (derivable_pt_lim_div f g).
Qed.
Lemma follows_sqrt f a : follows f a -> 0 < fst a -> follows (fun t => sqrt (f t)) (asqrt (dual_arith Rarith) a).
Proof.
  destruct a as [a a']. unfold follows. cbn. intros [F1 F2] Ha. split; [now rewrite F1|]. subst a.
  replace (a' / ((1 + 1) * sqrt (f 0))) with (/ (2 * sqrt (f 0)) * a') by (unfold Rdiv; replace (1 + 1) with 2 by lra; lra).
  apply (derivable_pt_lim_comp f sqrt); [exact F2|]. now apply derivable_pt_lim_sqrt.
Qed.
Lemma follows_sum {I} (l : list I) (f : I -> R -> R) (a : I -> Dual Rring) : (forall i, In i l -> follows (f i) (a i)) ->
  follows (fun t => @sumf Rring I l (fun i => f i t)) (sumf l a).
Proof.
  induction l as [|i l IH]; intros H; [apply follows_fixed|]. rewrite sumf_cons.
  apply (follows_add (f i) (fun t => @sumf Rring I l (fun i => f i t))); [apply H; now left|]. apply IH. intros j Hj. apply H. now right.
Qed.

Section Loss.
  Variables (eps : R) (affine track training : bool) (q : running Rring) (gamma beta gamma' beta' : Z -> Rring) (G G' : tensor Rring).
  Hypothesis Heps : 0 < eps.
  Hypothesis Hq : training = false -> track = true -> forall k, 0 <= q_var q k.
  Notation q2 := (mkrun (R := Dual Rring) (fun k => fixed (q_mean q k)) (fun k => fixed (q_var q k)) (q_seen q)).

  Lemma follows_entry i : follows (fun t => tat (moved G G' t) i) (tat (moving G G') i).
  Proof. cbn [moved moving tat]. apply (follows_line (tat G i) (tat G' i)). Qed.

  Lemma follows_mean k : follows (fun t => channel_mean Rarith (moved G G' t) k) (channel_mean (dual_arith Rarith) (moving G G') k).
  Proof.
    unfold channel_mean. rewrite (dual_int (R := Rring)).
    apply (follows_over (fun t => @sumf Rring _ (channel_entries (tshape G) k) (fun i => tat (moved G G' t) i))). 
    apply (follows_sum _ (fun i t => tat (moved G G' t) i)). intros i _. apply follows_entry.
  Qed.
  Lemma follows_var k : follows (fun t => channel_var Rarith (moved G G' t) k) (channel_var (dual_arith Rarith) (moving G G') k).
  Proof.
    unfold channel_var. rewrite (dual_int (R := Rring)). cbn [moved moving tshape].
    apply (follows_over (fun t => @sumf Rring _ (channel_entries (tshape G) k)
      (fun i => (tat (moved G G' t) i - channel_mean Rarith (moved G G' t) k) * (tat (moved G G' t) i - channel_mean Rarith (moved G G' t) k)))).
    apply (follows_sum _ (fun i t => (tat (moved G G' t) i - channel_mean Rarith (moved G G' t) k) * (tat (moved G G' t) i - channel_mean Rarith (moved G G' t) k))).
    intros i _. apply (follows_mul (fun t => tat (moved G G' t) i - channel_mean Rarith (moved G G' t) k) (fun t => tat (moved G G' t) i - channel_mean Rarith (moved G G' t) k));
      apply (follows_sub (fun t => tat (moved G G' t) i)); auto using follows_entry, follows_mean.
  Qed.

  Lemma rint_real p : 0 < @rint Rring (Zpos p).
  Proof.
    cbn [rint radd rone rzero Rring]. induction p as [|p IH] using Pos.peano_ind; [cbn; lra|]. rewrite Pos.iter_succ.
    apply Rplus_lt_0_compat; [lra|exact IH].
  Qed.
  Lemma sum_nonneg {I} (l : list I) (f : I -> Rring) : (forall i, In i l -> 0 <= f i) -> 0 <= @sumf Rring I l f.
  Proof.
    induction l as [|i l IH]; intros H; [apply Rle_refl|]. rewrite sumf_cons. cbn [radd Rring].
    apply Rplus_le_le_0_compat; [apply H; now left|]. apply IH. intros j Hj. apply H. now right.
  Qed.

  Hypothesis Hvol : (0 < channel_volume (tshape G))%Z.

  Lemma var_nonneg k : 0 <= channel_var Rarith G k.
  Proof.
    unfold channel_var. cbn [adiv Rarith]. unfold Rdiv. apply Rmult_le_pos.
    - apply sum_nonneg. intros i _. apply Rle_0_sqr.
    - destruct (channel_volume (tshape G)) as [|p|p]; try lia. left. apply Rinv_0_lt_compat, rint_real.
  Qed.

  Lemma follows_uses k :
    follows (fun t => fst (uses Rarith track training q (moved G G' t)) k) (fst (uses (dual_arith Rarith) track training q2 (moving G G')) k) /\
    follows (fun t => snd (uses Rarith track training q (moved G G' t)) k) (snd (uses (dual_arith Rarith) track training q2 (moving G G')) k) /\
    0 <= snd (uses Rarith track training q G) k.
  Proof.
    unfold uses. destruct (negb training && track) eqn:E; cbn [fst snd].
    - apply andb_true_iff in E as [E1 E2]. destruct training; [discriminate|].
      split; [apply follows_fixed|]. split; [apply follows_fixed|]. now apply Hq.
    - split; [apply follows_mean|]. split; [apply follows_var|]. apply var_nonneg.
  Qed.

  Lemma follows_output i :
    follows (fun t => tat (normalised Rarith eps affine track training (moved_value gamma gamma' t) (moved_value beta beta' t) q (moved G G' t)) i)
            (tat (moving_output Rarith eps affine track training q gamma beta gamma' beta' G G') i).
  Proof.
    set (k := nth 1 i 0%Z). destruct (follows_uses k) as (M & V & N).
    set (y := fun t => (tat (moved G G' t) i - fst (uses Rarith track training q (moved G G' t)) k) /
                       sqrt (snd (uses Rarith track training q (moved G G' t)) k + eps)).
    assert (Y : follows y (adiv (dual_arith Rarith)
                 (@rsub (Dual Rring) (tat (moving G G') i) (fst (uses (dual_arith Rarith) track training q2 (moving G G')) k))
                 (asqrt (dual_arith Rarith) (@radd (Dual Rring) (snd (uses (dual_arith Rarith) track training q2 (moving G G')) k) (fixed (R := Rring) eps))))).
    { assert (S0 : 0 < fst (@radd (Dual Rring) (snd (uses (dual_arith Rarith) track training q2 (moving G G')) k) (fixed (R := Rring) eps))).
      { destruct (uses_dual (R := Rring) Rarith track training q G G' k) as [_ E]. unfold dual_running in E. rewrite E. cbn.
        unfold used_var. change (0 < snd (uses Rarith track training q G) k + eps). lra. }
      apply (follows_div (fun t => tat (moved G G' t) i - fst (uses Rarith track training q (moved G G' t)) k)
                         (fun t => sqrt (snd (uses Rarith track training q (moved G G' t)) k + eps))).
      - apply (follows_sub (fun t => tat (moved G G' t) i)); [apply follows_entry|exact M].
      - apply (follows_sqrt (fun t => snd (uses Rarith track training q (moved G G' t)) k + eps)); [|exact S0].
        apply (follows_add (fun t => snd (uses Rarith track training q (moved G G' t)) k) (fun _ => eps)); [exact V|apply follows_fixed].
      - cbn [asqrt dual_arith dual_sqrt fst]. intros E. apply sqrt_lt_R0 in S0. cbn [asqrt Rarith] in E. rewrite E in S0. lra. }
    assert (EL : forall t, tat (normalised Rarith eps affine track training (moved_value gamma gamma' t) (moved_value beta beta' t) q (moved G G' t)) i =
              if affine then moved_value gamma gamma' t k * y t + moved_value beta beta' t k else y t).
    { intros t. unfold normalised, y. destruct (uses Rarith track training q (moved G G' t)) as [m s]. cbn [fst snd tat]. reflexivity. }
    unfold moving_output, normalised at 2. destruct (uses (dual_arith Rarith) track training q2 (moving G G')) as [m s]. cbn [fst snd tat] in *. fold k.
    destruct affine.
    - assert (Z : follows (fun t => moved_value gamma gamma' t k * y t + moved_value beta beta' t k)
         (@radd (Dual Rring) (@rmul (Dual Rring) (gamma k, gamma' k) (adiv (dual_arith Rarith) (@rsub (Dual Rring) (tat (moving G G') i) (m k)) (asqrt (dual_arith Rarith) (@radd (Dual Rring) (s k) (fixed (R := Rring) eps))))) (beta k, beta' k))).
      { apply (follows_add (fun t => moved_value gamma gamma' t k * y t) (fun t => moved_value beta beta' t k)); [|apply (follows_line (beta k) (beta' k))].
        apply (follows_mul (fun t => moved_value gamma gamma' t k) y); [apply (follows_line (gamma k) (gamma' k))|exact Y]. }
      destruct Z as [Z1 Z2]. split; [rewrite EL; exact Z1|]. eapply derivable_ext; [intros t; symmetry; apply EL|exact Z2].
    - destruct Y as [Z1 Z2]. split; [rewrite EL; exact Z1|]. eapply derivable_ext; [intros t; symmetry; apply EL|exact Z2].
  Qed.
End Loss.

Lemma volume_pos s i : (2 <= length s)%nat -> valid_index s i -> (0 < channel_volume s)%Z.
Proof.
  intros H2 Hi. unfold channel_volume. destruct s as [|a [|b r]]; cbn [length] in H2; try lia.
  apply valid_index_cons_inv in Hi as (j & t & -> & Hj & Hi). apply valid_index_cons_inv in Hi as (j' & t' & -> & _ & Hi).
  cbn [nth skipn]. apply Z.mul_pos_pos; [lia|]. clear - Hi. revert t' Hi. induction r as [|a r IH]; intros t Hi; [reflexivity|].
  apply valid_index_cons_inv in Hi as (j & t' & -> & Hj & Hi). unfold zprod in *. cbn [fold_right]. apply Z.mul_pos_pos; [lia|]. eapply IH; eauto.
Qed.

Lemma C56_real_proof : C56_real_statement.
Proof.
  intros eps affine track training q gamma beta G dY dX dgamma dbeta Heps Hq H2 HY [_ HG] G' gamma' beta'.
  specialize (HG G' gamma' beta'). change (radd (inner dX G') (sumf (zrange (nth 1 (tshape G) 0%Z)) (fun k => radd (rmul (dgamma k) (gamma' k)) (rmul (dbeta k) (beta' k)))))
    with (inner dX G' + @sumf Rring Z (zrange (nth 1 (tshape G) 0%Z)) (fun k => dgamma k * gamma' k + dbeta k * beta' k)) in HG.
  rewrite <- HG. clear HG. unfold loss, inner. cbn [rate tat].
  pose (f := fun i t => tat dY i * tat (normalised Rarith eps affine track training (moved_value gamma gamma' t) (moved_value beta beta' t) q (moved G G' t)) i).
  assert (F : follows (fun t => @sumf Rring _ (indices (tshape dY)) (fun i => f i t))
     (sumf (indices (tshape dY)) (fun i => @rmul (Dual Rring) (fixed (R := Rring) (tat dY i)) (tat (moving_output Rarith eps affine track training q gamma beta gamma' beta' G G') i)))).
  { apply follows_sum. intros i Hi. apply in_indices in Hi. rewrite HY in Hi. apply (follows_mul (fun _ => tat dY i)); [apply follows_fixed|].
    apply follows_output; auto. eapply volume_pos; eauto. }
  destruct F as [_ F]. rewrite (dual_sum (R := Rring)) in F. cbn [snd] in F.
  assert (E : @sumf Rring _ (indices (tshape dY)) (fun i => snd (@rmul (Dual Rring) (fixed (R := Rring) (tat dY i)) (tat (moving_output Rarith eps affine track training q gamma beta gamma' beta' G G') i))) =
              @sumf Rring _ (indices (tshape dY)) (fun i => rmul (tat dY i) (snd (tat (moving_output Rarith eps affine track training q gamma beta gamma' beta' G G') i)))).
  { apply sumf_ext. intros i _. cbn. lra. }
  rewrite <- E. exact F.
Qed.

Theorem C56_real_derivative : C56_real_statement.
Proof. exact C56_real_proof. Qed.

(** A batch of 0 and 2 in training, with gamma 3, beta 1 and output gradients 1 and 4,
    moved in the direction (1, 5) with gamma and beta moving by 1 and 2. *)
Example C56_real_example :
  let G : tensor Rring := @mkt Rring [2; 1]%Z (fun i => IZR (2 * nth 0 i 0%Z)) in
  let G' : tensor Rring := @mkt Rring [2; 1]%Z (fun i => IZR (4 * nth 0 i 0%Z + 1)) in
  let dY : tensor Rring := @mkt Rring [2; 1]%Z (fun i => IZR (3 * nth 0 i 0%Z + 1)) in
  exists dX dgamma dbeta, 
    bn_gradients Rarith (1 / 8) true true true (@fresh Rring) (fun _ => 3) (fun _ => 1) G dY dX dgamma dbeta /\
    derivable_pt_lim (loss (1 / 8) true true true (@fresh Rring) (fun _ => 3) (fun _ => 1) (fun _ => 1) (fun _ => 2) G G' dY) 0
      (inner dX G' + @sumf Rring Z (zrange 1) (fun k => dgamma k * 1 + dbeta k * 2)).
Proof.
  intros G G' dY. pose proof (@sequential_gradients Rring Rarith) as S.
  assert (HA : linear_division Rarith) by (intros a b; cbn; unfold Rdiv; lra).
  specialize (S HA (1 / 8) true true true (@fresh Rring) (fun _ => 3) (fun _ => 1) G dY ltac:(cbn; lia) eq_refl).
  eexists _, _, _. split; [exact S|].
  apply (C56_real_derivative (1 / 8) true true true (@fresh Rring) (fun _ => 3) (fun _ => 1) G dY _ _ _ ltac:(lra) ltac:(discriminate) ltac:(cbn; lia) eq_refl S G' (fun _ => 1) (fun _ => 2)).
Qed.

Print Assumptions C56_real_derivative.
