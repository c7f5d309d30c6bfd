(** Rounding errors of the gradients of average pools: C87. *)

From Coq Require Import Reals Lra Sorting.Permutation.
From Flocq Require Import Core Binary Bits BinarySingleNaN.
From Verif Require Import Prelude SpecIndex SpecLayout SpecPartition SpecHalo SpecSum ModelSlicing ModelDecomposition
  ModelPartition ProofPartition Ring Tensor ModelCollectives PropCollectives Blocks ModelUtilities P2P Rounds Schedule ModelRepartition PropRepartition
  ModelHaloMixin ProofHaloMixin PropHaloMixin ModelHaloExchange PropHaloExchange ModelFeatureLayer SpecFeature PropFeatureLayer PropFeatureConv PropFeatureCommon
  ModelConv ModelGradients PropLinear PropConv PropConvGrad ModelFeatureGrad PropFeatureGrad ModelTorch SpecWindow PropWindow ModelReduce PropReduce SpecRounding PropRounding SpecConvSum ModelConvReduce
  PropConvReduce PropConvRounding PropLossRounding ModelHaloReduce PropHaloReduce PropFeatureReduce PropConvGradRounding PropFeatureRounding PropWindowReduce
  PropWindowRounding ModelPoolReduce PropPoolReduce.
Local Open Scope Z_scope.

(** The error of a sum of the terms [l], each divided by [n] first. *)
Definition share_error (F : format) (l : list (term (words F))) (n : Z) : R :=
  (((1 + unit_error F) * growth F l - 1) * (sum_abs F l / IZR n) + 2 * growth F l * (INR (length l) * tiny_error F))%real.

Definition shares_near (F : format) (l : list (term (words F))) (n : Z) (r : words F) : Prop :=
  (finite F r -> Forall (finite_term F) l /\ (Rabs (number F r - sum_number F l / IZR n) <= share_error F l n)%real) /\
  (Forall (finite_term F) l -> (sum_abs F l / IZR n + share_error F l n < bpow radix2 (f_max F))%real -> finite F r).

(** The entries of the output's gradient whose windows see [q]. *)
Definition seeing {R : CRing} (w : window) (dY : tensor R) (ys : list Z) (b' ch : Z) (q : list Z) : list (term R) :=
  flat_map (fun o => flat_map (fun t => if list_eq_dec Z.eq_dec (window_at w o t) q then [Num (tat dY (b' :: ch :: o))] else [])
    (indices (w_kernel w))) (indices ys).

Definition C87_statement : Prop :=
  forall (F : format) (M : machine (words F)) (divide : words F -> Z -> words F) (back : Z -> tensor (words F) -> tensor (words F) -> result (tensor (words F)))
    (world : list Z) (P : part) (L : layout) (w : window) (X dY : tensor (words F)) (b c : Z) (xs ys : list Z) (x dy : Z -> tensor (words F)),
    ieee F M -> ieee_division F divide -> zprod (w_kernel w) < 2 ^ f_prec F ->
    torch_pool_back_by M divide w back ->
    feature_given world P L w -> has_output w X b c xs ys -> holds_blocks P L X x -> within L w (b :: c :: ys) ->
    tshape dY = b :: c :: ys -> holds_blocks P (balanced (b :: c :: ys) (p_shape P)) dY dy ->
    let shape v := tshape (x v) in
    let arg := halo_argument P w rzero shape x in
    let plan := halo_plan P w shape in
    let layer := history_rounds_by P (fun v => tshape (arg v)) (fun v => u_recv (plan v)) (fun v => u_send (plan v)) (m_add M) in
    forall pre init eager gf pre' init' eager' gb,
      same_calls P arg pre -> ends world (layer (pre ++ [HForward arg])) init eager gf ->
      same_calls P arg pre' ->
      ends world (layer (pre' ++ [HBackward (pool_back_argument_by back P w x (halo_result gf) dy)])) init' eager' gb ->
      exists dX, tshape dX = b :: c :: xs /\
        (forall b' ch q, valid_index (tshape dX) (b' :: ch :: q) ->
           shares_near F (seeing w dY ys b' ch q) (zprod (w_kernel w)) (tat dX (b' :: ch :: q))) /\
        (forall idx v, worker_at P idx v -> exists t, pool_gradient_by P w x dy (halo_result gb) v = Ok t /\ teq t (block L idx dX)).

(** ** Proofs *)

Section Shares.
  Variables (F : format) (M : machine (words F)) (divide : words F -> Z -> words F) (n : Z).
  Hypothesis HM : ieee F M.
  Hypothesis HD : ieee_division F divide.
  Hypothesis Hn : 0 < n < 2 ^ f_prec F.
  Let u := unit_error F.
  Let t := tiny_error F.
  Let quotients (l : list (words F)) : list (term (words F)) := map (fun y => Num (divide y n)) l.
  Let nums (l : list (words F)) : list (term (words F)) := map Num l.

  Lemma quotients_finite l : Forall (finite_term F) (quotients l) -> Forall (finite_term F) (nums l).
  Proof.
    induction l as [|y l IH]; [constructor|]. cbn [quotients nums map]. intros H. inversion H as [|? ? H1 H2]. subst.
    constructor; [|now apply IH]. apply (divide_correct F divide HD y n Hn). exact H1.
  Qed.

  Lemma quotients_near l : Forall (finite_term F) (nums l) -> Forall (finite_term F) (quotients l) /\
    (Rabs (sum_number F (quotients l) - sum_number F (nums l) / IZR n) <= u * (sum_abs F (nums l) / IZR n) + INR (length l) * t)%real /\
    (sum_abs F (quotients l) <= (1 + u) * (sum_abs F (nums l) / IZR n) + INR (length l) * t)%real.
  Proof.
    assert (Hpos : (0 < IZR n)%real) by (apply IZR_lt; lia).
    induction l as [|y l IH]; intros H.
    - split; [constructor|]. cbn [quotients nums map sum_number sum_abs fold_right length INR]. unfold Rdiv. rewrite !Rmult_0_l, Rminus_0_r, Rabs_R0. lra.
    - cbn [nums map] in H. inversion H as [|? ? H1 H2]. subst. destruct (IH H2) as (A1 & A2 & A3).
      destruct (proj2 (divide_correct F divide HD y n Hn) H1) as [B1 B2]. assert (B3 : (Rabs (number F (divide y n) - number F y / IZR n) <= u * Rabs (number F y / IZR n) + t)%real) by (rewrite B2; exact (rnd_error F (number F y / IZR n))).
      split; [constructor; [exact B1|exact A1]|].
      change (sum_number F (quotients (y :: l))) with (number F (divide y n) + sum_number F (quotients l))%real.
      change (sum_number F (nums (y :: l))) with (number F y + sum_number F (nums l))%real.
      change (sum_abs F (quotients (y :: l))) with (Rabs (number F (divide y n)) + sum_abs F (quotients l))%real.
      change (sum_abs F (nums (y :: l))) with (Rabs (number F y) + sum_abs F (nums l))%real.
      change (length (y :: l)) with (S (length l)). rewrite S_INR.
      set (a := number F (divide y n)) in *. set (y' := number F y) in *.
      set (Sq := sum_number F (quotients l)) in *. set (Sn := sum_number F (nums l)) in *. set (Aq := sum_abs F (quotients l)) in *. set (An := sum_abs F (nums l)) in *.
      assert (K : (Rabs (y' / IZR n) = Rabs y' / IZR n)%real).
      { unfold Rdiv. rewrite Rabs_mult, (Rabs_pos_eq (/ IZR n)) by (left; now apply Rinv_0_lt_compat). reflexivity. }
      rewrite K in B3. split.
      + replace (a + Sq - (y' + Sn) / IZR n)%real with ((a - y' / IZR n) + (Sq - Sn / IZR n))%real by (field; lra).
        eapply Rle_trans; [apply Rabs_triang|]. replace ((Rabs y' + An) / IZR n)%real with (Rabs y' / IZR n + An / IZR n)%real by (field; lra).
        generalize dependent (Rabs y' / IZR n)%real. generalize dependent (An / IZR n)%real. intros; lra.
      + assert (K2 : (Rabs a <= Rabs y' / IZR n + (u * (Rabs y' / IZR n) + t))%real).
        { replace a with (y' / IZR n + (a - y' / IZR n))%real by ring. eapply Rle_trans; [apply Rabs_triang|]. rewrite K. lra. }
        replace ((Rabs y' + An) / IZR n)%real with (Rabs y' / IZR n + An / IZR n)%real by (field; lra).
        generalize dependent (Rabs y' / IZR n)%real. generalize dependent (An / IZR n)%real. intros; lra.
  Qed.

  Lemma shares_of l r : evaluates M (quotients l) r -> shares_near F (nums l) n r.
  Proof.
    intros E. destruct (C62_sums F M (quotients l) r HM E) as [A1 A2].
    assert (Lq : length (quotients l) = length l) by apply map_length. assert (Ln : length (nums l) = length l) by apply map_length.
    assert (Eg : growth F (quotients l) = growth F (nums l)) by (unfold growth; now rewrite Lq, Ln).
    assert (U : (0 < u)%real) by apply bpow_gt_0. assert (T : (0 < t)%real) by apply bpow_gt_0.
    assert (G : (1 <= growth F (nums l))%real) by (unfold growth; apply pow_R1_Rle; fold u; lra).
    assert (N : (0 <= INR (length l))%real) by apply pos_INR.
    unfold shares_near, share_error, sum_error in *. rewrite Lq in A1, A2. rewrite Ln. rewrite Eg in A1, A2. fold u t in A1, A2 |- *.
    set (g := growth F (nums l)) in *. set (m := INR (length l)) in *.
    assert (MT : (0 <= m * t)%real) by (apply Rmult_le_pos; lra).
    split.
    - intros H. destruct (A1 H) as [B1 B2]. pose proof (quotients_finite l B1) as B3. split; [exact B3|].
      destruct (quotients_near l B3) as (_ & C1 & C2). fold m in C1, C2.
      set (a := (sum_abs F (nums l) / IZR n)%real) in *. set (s := (sum_number F (nums l) / IZR n)%real) in *. set (q := sum_number F (quotients l)) in *.
      replace (number F r - s)%real with ((number F r - q) + (q - s))%real by ring. eapply Rle_trans; [apply Rabs_triang|].
      assert (K : ((g - 1) * sum_abs F (quotients l) <= (g - 1) * ((1 + u) * a + m * t))%real) by (apply Rmult_le_compat_l; lra).
      replace (((1 + u) * g - 1) * a + 2 * g * (m * t))%real with ((g - 1) * ((1 + u) * a + m * t) + g * (m * t) + (u * a + m * t))%real by ring. lra.
    - intros H1 H2. destruct (quotients_near l H1) as (C0 & C1 & C2). fold m in C1, C2. apply A2; [exact C0|].
      set (a := (sum_abs F (nums l) / IZR n)%real) in *.
      assert (K : (g * sum_abs F (quotients l) <= g * ((1 + u) * a + m * t))%real) by (apply Rmult_le_compat_l; lra).
      replace (a + (((1 + u) * g - 1) * a + 2 * g * (m * t)))%real with (g * ((1 + u) * a + m * t) + g * (m * t))%real in H2 by ring. lra.
  Qed.
End Shares.

Lemma C87_proof : C87_statement.
Proof.
  intros F M divide back world P L w X dY b c xs ys x dy HI HV Hn HT HG HO HB Hin ED HD shape arg plan layer pre init eager gf pre' init' eager' gb Hp Hf Hp' Hb'.
  assert (Hk : 0 < zprod (w_kernel w)).
  { apply zprod_pos. destruct HG as (_ & _ & _ & _ & _ & HG). assert (exists n, window_ok n w) as [n Hw] by (decompose [and] HG; eauto).
    unfold pos_shape. apply Hw. }
  destruct (C86_proof (words F) M divide back world P L w X dY b c xs ys x dy HT HG HO HB Hin ED HD pre init eager gf Hp Hf) as (_ & _ & K).
  destruct (K pre' init' eager' gb Hp' Hb') as (dX & (S1 & V1) & D1 & _). exists dX. split; [exact S1|]. split; [|exact D1].
  intros b' ch q Hq. specialize (V1 b' ch q Hq). rewrite average_terms_keys in V1.
  assert (E1 : map (share divide (zprod (w_kernel w)) dY) (pool_keys w ys b' ch q) =
    map (fun y => Num (divide y (zprod (w_kernel w)))) (map (tat dY) (pool_keys w ys b' ch q))) by (rewrite map_map; reflexivity).
  assert (E2 : seeing w dY ys b' ch q = map Num (map (tat dY) (pool_keys w ys b' ch q))).
  { unfold seeing, pool_keys. rewrite map_map.
    assert (FM : forall {A B C} (f : A -> list B) (g : B -> C) l, map g (flat_map f l) = flat_map (fun a => map g (f a)) l).
    { intros A B C f g l. induction l as [|a l IH]; cbn [flat_map]; auto. now rewrite map_app, IH. }
    rewrite FM. apply flat_map_ext. intros o. rewrite FM. apply flat_map_ext. intros t. destruct (list_eq_dec Z.eq_dec _ q); reflexivity. }
  rewrite E1 in V1. rewrite E2. exact (shares_of F M divide _ HI HV (conj Hk Hn) _ _ V1).
Qed.

Theorem C87_pool_gradients : C87_statement.
Proof. exact C87_proof. Qed.

(** ** Example: C86's pool in half precision *)
Definition ph_torch := alternate_pool_back ex62_M hl_divide cv_w.
Definition ph_dy (v : Z) : tensor (words half) := hmap (fr_dy v).
Definition ph_back : Z -> tensor (words half) := pool_back_argument_by ph_torch cv_P cv_w wh_x (halo_result wh_g) ph_dy.
Definition ph_gb : @gst (@hst (words half)) (tensor (words half)) :=
  played cv_world (wh_layer ([] ++ [HBackward ph_back])) ex71_start (fun _ _ _ _ => true) (fun _ => [2; 3; 0; 1]%nat) 500.
Definition ph_dx := pool_gradient_by cv_P cv_w wh_x ph_dy (halo_result ph_gb).

(** 0xda4f is -201.875; exactly the entry [0; 0; 2] of worker 10 is -202. *)
Example C87_example :
  ieee half ex62_M /\ ieee_division half hl_divide /\ zprod (w_kernel cv_w) < 2 ^ f_prec half /\
  torch_pool_back_by ex62_M hl_divide cv_w ph_torch /\ feature_given cv_world cv_P cv_L cv_w /\
  has_output cv_w (hmap wr_G) 1 2 [10] [10] /\ holds_blocks cv_P cv_L (hmap wr_G) wh_x /\ within cv_L cv_w [1; 2; 10] /\
  tshape (hmap fr_dY) = [1; 2; 10] /\ holds_blocks cv_P (balanced [1; 2; 10] (p_shape cv_P)) (hmap fr_dY) ph_dy /\
  ends cv_world (wh_layer ([] ++ [HForward wh_arg])) ex71_start (fun _ _ _ _ => false) wh_g /\
  ends cv_world (wh_layer ([] ++ [HBackward ph_back])) ex71_start (fun _ _ _ _ => true) ph_gb /\
  map (fun v => map (fun i => hf_bits (tat (val (ph_dx v)) i)) (indices [1; 2; 3])) [10; 12] =
    [[56157; 56508; 55887; 53301; 0; 22096]; [23740; 24144; 23740; 24764; 24966; 24548]] /\
  finite half (tat (val (ph_dx 11)) [0; 1; 2]).
Proof.
  destruct C85_pools_example as (A1 & A2 & A3 & _ & A5 & A6 & A7 & A8 & A9 & _).
  do 3 (split; [assumption|]). split; [apply alternate_pool_back_ok|]. do 4 (split; [assumption|]). split; [reflexivity|].
  split.
  { destruct fr_given as (_ & _ & _ & _ & _ & _ & _ & _ & _ & B1 & B2). split; [exact B1|]. intros idx v Hv. apply hmap_block. exact (B2 idx v Hv). }
  split; [exact A9|]. split; [apply played_ends; vm_compute; reflexivity|]. split; vm_compute; reflexivity.
Qed.

Print Assumptions C87_pool_gradients.
