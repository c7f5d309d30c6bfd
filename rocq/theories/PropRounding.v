(** Rounding errors of distributed sums and linear layers: C62. *)

From Coq Require Import Reals Lra Sorting.Permutation.
From Flocq Require Import Core Binary Bits BinarySingleNaN Plus_error Relative.
From Verif Require Import Prelude SpecIndex SpecLayout SpecPartition ModelSlicing ModelDecomposition ModelPartition Ring Tensor
  ModelCollectives PropPartition ProofPartition PropCollectives Blocks ModelTorch ModelLinear PropLinear ModelReduce SpecSum PropReduce SpecRounding.

(** Every number that can be computed for a sum is near to it. *)
Definition C62_sums_statement : Prop :=
  forall (F : format) (M : machine (words F)) (l : list (term (words F))) (r : words F),
  ieee F M -> evaluates M l r -> approximates F l r.

(** Two of them, say of the sequential and of the distributed layer, are near to each
    other. *)
Definition C62_two_results_statement : Prop :=
  forall (F : format) (l : list (term (words F))) (r r' : words F),
  approximates F l r -> approximates F l r' -> finite F r -> finite F r' ->
  (Rabs (number F r - number F r') <= 2 * sum_error F l)%real.

(** SumReduce, Broadcast's backward pass and AllSumReduce. *)
Definition C62_reductions_statement : Prop :=
  forall (F : format) (M : machine (words F)) red, ieee F M -> adds M red ->
  (forall Px Py (same ts td pb : bool) dt rg,
     rd_accepted Px Py ts td same -> bc_flags Py ts td ->
     forall x : Z -> tensor (words F), shapes_ok Px Py pb x ->
     (forall d s s', In s (p_ranks Px) -> In s' (p_ranks Px) -> paired Py Px td ts d s -> paired Py Px td ts d s' -> tshape (x s) = tshape (x s')) ->
     forall d, In d (p_ranks Py) -> exists t, sum_reduce_layer_by red Px Py same ts td pb dt rg x d = Ok t /\
     forall g i, NoDup g -> (forall s, In s g <-> In s (p_ranks Px) /\ paired Py Px td ts d s) ->
     approximates F (map (fun s => Num (tat (x s) i)) g) (tat t i)) /\
  (forall Px Py (same ts td pb : bool) dt rg,
     bc_accepted Px Py ts td same -> bc_flags Px ts td ->
     forall x dy : Z -> tensor (words F), shapes_ok Px Py pb x -> shapes_ok Px Py pb dy ->
     (forall d, In d (p_ranks Py) -> tshape (dy d) = tshape (val (broadcast_layer Px Py same ts td pb dt rg x d))) ->
     forall s, In s (p_ranks Px) -> exists t, broadcast_layer_backward_by red Px Py same ts td pb dt rg x dy s = Ok t /\ tshape t = tshape (x s) /\
     forall g i, NoDup g -> (forall d, In d g <-> In d (p_ranks Py) /\ paired Px Py ts td s d) ->
     approximates F (map (fun d => Num (tat (dy d) i)) g) (tat t i)) /\
  (forall P ar ak (x z : Z -> tensor (words F)),
     part_ok P -> axes_given (length (p_shape P)) ar ak ->
     (forall u v, reduced_with P ar ak u v -> tshape (x u) = tshape (x v)) ->
     (forall v, In v (p_ranks P) -> tshape (z v) = tshape (x v)) ->
     forall v, In v (p_ranks P) -> exists t, all_sum_reduce_layer_by red P ar ak x z v = Ok t /\ tshape t = tshape (x v) /\
     forall g i, NoDup g -> (forall u, In u g <-> reduced_with P ar ak v u) ->
     approximates F (map (fun u => Num (tat (z u) i)) g) (tat t i)).

(** The linear layer. *)
Definition C62_linear_statement : Prop :=
  forall (F : format) (M : machine (words F)) red torch back_x back_w back_b
    (Px Py Pw : part) (fi fo : Z) (same_xw same_wy : bool) dt dt' rg rg'
    (lead : list Z) (n_in n_out : Z) (X W : tensor (words F)) (b : option (tensor (words F))) (weight bias x : Z -> tensor (words F)),
  ieee F M -> adds M red -> torch_linear_by M torch -> torch_linear_back_by M back_x back_w back_b ->
  linear_partitions Px Py Pw fi fo same_xw same_wy ->
  linear_arguments lead n_in n_out X W b ->
  (forall i v, worker_at Px [0; i] v -> teq (x v) (block (last_cut lead n_in fi) (piece lead i) X)) ->
  (forall idx v, worker_at Pw idx v -> teq (weight v) (block (balanced [n_out; n_in] [fo; fi]) idx W)) ->
  match b with
  | Some b => forall j v, worker_at Pw [j; 0] v -> teq (bias v) (block (balanced [n_out] [fo]) [j] b)
  | None => True
  end ->
  (forall v, In v (p_ranks Pw) \/ In v (p_ranks Py) -> ~ In v (p_ranks Px) -> nonneg_shape (tshape (x v)) /\ tshape (x v) <> []) ->
  let use_bias := match b with Some _ => true | None => false end in
  let y := linear_forward_by red torch Px Py Pw use_bias same_xw same_wy dt dt' rg rg' weight bias x in
  (exists Y, linear_near F lead n_in n_out X W b Y /\
     forall j d, worker_at Py [0; j] d -> exists t, y d = Ok t /\ teq t (block (last_cut lead n_out fo) (piece lead j) Y)) /\
  (* the sequential layer on any worker *)
  (forall v, exists Y, torch v W b X = Ok Y /\ linear_near F lead n_in n_out X W b Y) /\
  (* backward *)
  forall (dY : tensor (words F)) (dy : Z -> tensor (words F)),
  tshape dY = lead ++ [n_out] ->
  (forall j d, worker_at Py [0; j] d -> teq (dy d) (block (last_cut lead n_out fo) (piece lead j) dY)) ->
  (forall v, In v (p_ranks Px) \/ In v (p_ranks Pw) -> ~ In v (p_ranks Py) -> nonneg_shape (tshape (dy v)) /\ tshape (dy v) <> []) ->
  let dx := linear_backward_by red torch back_x Px Py Pw use_bias same_xw same_wy dt dt' rg rg' weight bias x dy in
  let dweight := linear_weight_gradient_by torch back_w Px Py Pw use_bias same_xw same_wy dt dt' rg rg' weight bias x dy in
  let dbias := linear_bias_gradient_by torch back_b Px Py Pw use_bias same_xw same_wy dt dt' rg rg' weight bias x dy in
  (exists dX, input_gradient_near F lead n_in n_out W dY dX /\
     forall i s, worker_at Px [0; i] s -> exists t, dx s = Ok t /\ teq t (block (last_cut lead n_in fi) (piece lead i) dX)) /\
  (exists dW, weight_gradient_near F lead n_in n_out X dY dW /\
     forall idx u, worker_at Pw idx u -> exists t, dweight u = Ok t /\ teq t (block (balanced [n_out; n_in] [fo; fi]) idx dW)) /\
  (b <> None -> exists db, bias_gradient_near F lead n_out dY db /\
     forall j u, worker_at Pw [j; 0] u -> exists t, dbias u = Some (Ok t) /\ teq t (block (balanced [n_out] [fo]) [j] db)).

Section Errors.
  Variable F : format.
  Variable M : machine (words F).
  Hypothesis HM : ieee F M.
  Notation fin := (finite F).
  Notation num := (number F).
  Notation u := (unit_error F).
  Notation eta := (tiny_error F).
  Notation top := (bpow radix2 (f_max F)).
  Notation fx := (SpecFloat.fexp (f_prec F) (f_max F)).
  Notation rnd := (round radix2 fx (round_mode mode_NE)).
  Local Open Scope R_scope.

  #[local] Instance rp : Prec_gt_0 (f_prec F) := f_prec_pos F.
  #[local] Instance rm : Prec_lt_emax (f_prec F) (f_max F) := f_prec_max F.

  Lemma u_pos : 0 < u. Proof. apply bpow_gt_0. Qed.
  Lemma eta_pos : 0 < eta. Proof. apply bpow_gt_0. Qed.
  Lemma num_format a : generic_format radix2 fx (num a).
  Proof. apply generic_format_B2R. Qed.

  Lemma decode_zero : decode F (rzero (c := words F)) = BinarySingleNaN.B754_zero false.
  Proof.
    unfold decode. change (@bits (f_width F) (rzero (c := words F))) with (0 mod 2 ^ Z.of_nat (f_width F))%Z. rewrite Zmod_0_l.
    assert (A : binary_float_of_bits_aux (f_mantissa F) (f_exponent F) 0 = F754_zero false).
    { unfold binary_float_of_bits_aux, split_bits.
      pose proof (Z.pow_pos_nonneg 2 (f_mantissa F) ltac:(lia) ltac:(pose proof (f_mantissa_ok F); lia)).
      pose proof (Z.pow_pos_nonneg 2 (f_exponent F) ltac:(lia) ltac:(pose proof (f_exponent_ok F); lia)).
      rewrite Zdiv_0_l, !Zmod_0_l. cbn. assert (E : Zle_bool (2 ^ f_mantissa F * 2 ^ f_exponent F) 0 = false) by (apply Z.leb_gt; nia).
      now rewrite E. }
    assert (B : B2FF _ _ (binary_float_of_bits (f_mantissa F) (f_exponent F) (f_mantissa_ok F) (f_exponent_ok F) (f_range_ok F) 0) = F754_zero false).
    { unfold binary_float_of_bits. now rewrite B2FF_FF2B. }
    fold (f_prec F) (f_max F) in B.
    destruct (binary_float_of_bits (f_mantissa F) (f_exponent F) (f_mantissa_ok F) (f_exponent_ok F) (f_range_ok F) 0) as [s|s|s pl e|s m e Hb];
      cbn in B; try discriminate. injection B as ->. reflexivity.
  Qed.

  (** One operation. *)
  Lemma rnd_error x : Rabs (rnd x - x) <= u * Rabs x + eta.
  Proof.
    destruct (error_N_FLT radix2 (SpecFloat.emin (f_prec F) (f_max F)) (f_prec F) (f_prec_pos F) (fun x => negb (Z.even x)) x)
      as (e & t & He & Ht & _ & E).
    change (rnd x) with (round radix2 (FLT_exp (SpecFloat.emin (f_prec F) (f_max F)) (f_prec F)) ZnearestE x).
    rewrite E. replace (x * (1 + e) + t - x) with (e * x + t) by ring.
    eapply Rle_trans; [apply Rabs_triang|]. rewrite Rabs_mult.
    assert (U : / 2 * bpow radix2 (- f_prec F + 1) = u).
    { unfold unit_error. rewrite bpow_plus. change (bpow radix2 1) with 2. field. }
    assert (T : / 2 * bpow radix2 (SpecFloat.emin (f_prec F) (f_max F)) = eta).
    { unfold tiny_error, SpecFloat.emin. replace (3 - f_max F - f_prec F)%Z with (2 - f_max F - f_prec F + 1)%Z by lia.
      rewrite bpow_plus. change (bpow radix2 1) with 2. field. }
    rewrite U in He. rewrite T in Ht. apply Rplus_le_compat; [|exact Ht]. apply Rmult_le_compat_r; [apply Rabs_pos|exact He].
  Qed.
  Lemma rnd_add x y : generic_format radix2 fx x -> generic_format radix2 fx y -> Rabs (rnd (x + y) - (x + y)) <= u * Rabs (x + y).
  Proof.
    intros Hx Hy.
    destruct (FLT_plus_error_N_ex radix2 (SpecFloat.emin (f_prec F) (f_max F)) (f_prec F) (fun x => negb (Z.even x)) x y Hx Hy) as (e & He & E).
    change (rnd (x + y)) with (round radix2 (FLT_exp (SpecFloat.emin (f_prec F) (f_max F)) (f_prec F)) ZnearestE (x + y)).
    rewrite E. replace ((x + y) * (1 + e) - (x + y)) with (e * (x + y)) by ring. rewrite Rabs_mult.
    apply Rmult_le_compat_r; [apply Rabs_pos|]. eapply Rle_trans; [exact He|].
    assert (U : u_ro radix2 (f_prec F) = u).
    { unfold u_ro, unit_error. rewrite bpow_plus. change (bpow radix2 1) with 2. field. }
    rewrite U. pose proof u_pos. apply Rmult_le_reg_r with (1 + u); [lra|]. unfold Rdiv. rewrite Rmult_assoc, Rinv_l by lra. nra.
  Qed.

  Lemma add_finite a b : fin (m_add M a b) -> fin a /\ fin b /\ num (m_add M a b) = rnd (num a + num b).
  Proof.
    destruct HM as (HA & _). unfold finite, number. rewrite HA. intros H.
    assert (K : BinarySingleNaN.is_finite (decode F a) = true /\ BinarySingleNaN.is_finite (decode F b) = true).
    { destruct (decode F a) as [s|s| |s m e Hb], (decode F b) as [s'|s'| |s' m' e' Hb']; cbn in H |- *; try discriminate; auto.
      destruct (Bool.eqb s s'); discriminate. }
    destruct K as [A B]. split; [exact A|]. split; [exact B|].
    pose proof (BinarySingleNaN.Bplus_correct (f_prec F) (f_max F) (f_prec_pos F) (f_prec_max F) mode_NE (decode F a) (decode F b) A B) as C.
    destruct (Rlt_bool _ _); [apply C|]. destruct C as [C _]. exfalso. revert H C.
    change (f_prec_pos F) with rp. change (f_prec_max F) with rm.
    destruct (BinarySingleNaN.Bplus mode_NE (decode F a) (decode F b)); cbn; try discriminate.
    all: unfold BinarySingleNaN.binary_overflow; cbn; discriminate.
  Qed.
  Lemma mul_finite a b : fin (m_mul M a b) -> fin a /\ fin b /\ num (m_mul M a b) = rnd (num a * num b).
  Proof.
    destruct HM as (_ & HA & _). unfold finite, number. rewrite HA. intros H.
    assert (K : BinarySingleNaN.is_finite (decode F a) = true /\ BinarySingleNaN.is_finite (decode F b) = true).
    { destruct (decode F a) as [s|s| |s m e Hb], (decode F b) as [s'|s'| |s' m' e' Hb']; cbn in H |- *; try discriminate; auto. }
    destruct K as [A B]. split; [exact A|]. split; [exact B|].
    pose proof (BinarySingleNaN.Bmult_correct (f_prec F) (f_max F) (f_prec_pos F) (f_prec_max F) mode_NE (decode F a) (decode F b)) as C.
    destruct (Rlt_bool _ _); [apply C|]. exfalso. revert H C.
    change (f_prec_pos F) with rp. change (f_prec_max F) with rm.
    destruct (BinarySingleNaN.Bmult mode_NE (decode F a) (decode F b)); cbn; try discriminate.
    all: unfold BinarySingleNaN.binary_overflow; cbn; discriminate.
  Qed.
  Lemma fma_finite a b c : fin (m_fma M a b c) -> fin a /\ fin b /\ fin c /\ num (m_fma M a b c) = rnd (num a * num b + num c).
  Proof.
    destruct HM as (_ & _ & HA). unfold finite, number. rewrite HA. intros H.
    assert (K : BinarySingleNaN.is_finite (decode F a) = true /\ BinarySingleNaN.is_finite (decode F b) = true /\ BinarySingleNaN.is_finite (decode F c) = true).
    { destruct (decode F a) as [s|s| |s m e Hb], (decode F b) as [s'|s'| |s' m' e' Hb'], (decode F c) as [s''|s''| |s'' m'' e'' Hb''];
        cbn in H |- *; try discriminate; auto; try (destruct (Bool.eqb _ _); discriminate). }
    destruct K as (A & B & C). split; [exact A|]. split; [exact B|]. split; [exact C|].
    pose proof (BinarySingleNaN.Bfma_correct (f_prec F) (f_max F) (f_prec_pos F) (f_prec_max F) mode_NE (decode F a) (decode F b) (decode F c) A B C) as D. cbv zeta in D.
    destruct (Rlt_bool _ _); [apply D|]. exfalso. revert H D.
    change (f_prec_pos F) with rp. change (f_prec_max F) with rm.
    destruct (BinarySingleNaN.Bfma mode_NE (decode F a) (decode F b) (decode F c)); cbn; try discriminate.
    all: unfold BinarySingleNaN.binary_overflow; cbn; discriminate.
  Qed.
  Lemma finite_add a b : fin a -> fin b -> Rabs (rnd (num a + num b)) < top -> fin (m_add M a b).
  Proof.
    intros A B H. pose proof (BinarySingleNaN.Bplus_correct (f_prec F) (f_max F) (f_prec_pos F) (f_prec_max F) mode_NE (decode F a) (decode F b) A B) as C.
    unfold finite. rewrite (proj1 HM). apply Rlt_bool_true in H. unfold number in H. rewrite H in C. apply C.
  Qed.
  Lemma finite_mul a b : fin a -> fin b -> Rabs (rnd (num a * num b)) < top -> fin (m_mul M a b).
  Proof.
    intros A B H. pose proof (BinarySingleNaN.Bmult_correct (f_prec F) (f_max F) (f_prec_pos F) (f_prec_max F) mode_NE (decode F a) (decode F b)) as C.
    unfold finite. rewrite (proj1 (proj2 HM)). apply Rlt_bool_true in H. unfold number in H. rewrite H in C. destruct C as (_ & C & _).
    etransitivity; [exact C|]. now rewrite A, B.
  Qed.
  Lemma finite_fma a b c : fin a -> fin b -> fin c -> Rabs (rnd (num a * num b + num c)) < top -> fin (m_fma M a b c).
  Proof.
    intros A B C H. pose proof (BinarySingleNaN.Bfma_correct (f_prec F) (f_max F) (f_prec_pos F) (f_prec_max F) mode_NE (decode F a) (decode F b) (decode F c) A B C) as D.
    cbv zeta in D. unfold finite. rewrite (proj2 (proj2 HM)). apply Rlt_bool_true in H. unfold number in H. rewrite H in D. apply D.
  Qed.

  (** Sums. *)
  Lemma growth_ge n : 1 <= (1 + u) ^ n.
  Proof. apply pow_R1_Rle. pose proof u_pos. lra. Qed.
  Lemma growth_mono n m : (n <= m)%nat -> (1 + u) ^ n <= (1 + u) ^ m.
  Proof. intros H. apply Rle_pow; [pose proof u_pos; lra|exact H]. Qed.
  Definition err (n : nat) (A : R) : R := ((1 + u) ^ n - 1) * A + (1 + u) ^ n * (INR n * eta).
  Lemma err_pos n A : 0 <= A -> 0 <= err n A.
  Proof.
    intros H. unfold err. pose proof (growth_ge n). pose proof eta_pos. pose proof (pos_INR n).
    apply Rplus_le_le_0_compat; apply Rmult_le_pos; try lra. apply Rmult_le_pos; lra.
  Qed.
  Lemma err_mono n A m B : (n <= m)%nat -> 0 <= A -> A <= B -> err n A <= err m B.
  Proof.
    intros H HA HB. unfold err. pose proof (growth_ge n). pose proof (growth_mono n m H). pose proof eta_pos. pose proof (pos_INR n).
    pose proof (le_INR n m H). apply Rplus_le_compat; apply Rmult_le_compat; try lra; [apply Rmult_le_pos; lra|].
    apply Rmult_le_compat_r; lra.
  Qed.

  Lemma add_step n1 n2 s1 s2 A1 A2 x y r : (0 < n1)%nat -> (0 < n2)%nat -> Rabs s1 <= A1 -> Rabs s2 <= A2 ->
    Rabs (x - s1) <= err n1 A1 -> Rabs (y - s2) <= err n2 A2 -> Rabs (r - (x + y)) <= u * Rabs (x + y) ->
    Rabs (r - (s1 + s2)) <= err (n1 + n2) (A1 + A2).
  Proof.
    intros P1 P2 S1 S2 H1 H2 H.
    assert (0 <= A1) by (pose proof (Rabs_pos s1); lra). assert (0 <= A2) by (pose proof (Rabs_pos s2); lra).
    set (m := (n1 + n2 - 1)%nat). assert (Em : (n1 + n2 = S m)%nat) by (unfold m; lia). set (g := (1 + u) ^ m).
    pose proof (growth_ge m) as G. fold g in G. pose proof u_pos as U. pose proof eta_pos as T.
    assert (K : forall k A, (k <= m)%nat -> 0 <= A -> err k A <= (g - 1) * A + g * (INR k * eta)).
    { intros k A Hk HA. unfold err. pose proof (growth_mono k m Hk) as GM. fold g in GM. pose proof (pos_INR k).
      assert (0 <= INR k * eta) by (apply Rmult_le_pos; lra). apply Rplus_le_compat; apply Rmult_le_compat_r; lra. }
    pose proof (K n1 A1 ltac:(unfold m; lia) ltac:(assumption)) as K1. pose proof (K n2 A2 ltac:(unfold m; lia) ltac:(assumption)) as K2.
    set (e1 := (g - 1) * A1 + g * (INR n1 * eta)) in *. set (e2 := (g - 1) * A2 + g * (INR n2 * eta)) in *.
    assert (D : Rabs (x + y - (s1 + s2)) <= e1 + e2).
    { replace (x + y - (s1 + s2)) with ((x - s1) + (y - s2)) by ring. eapply Rle_trans; [apply Rabs_triang|]. lra. }
    assert (V : Rabs (x + y) <= A1 + A2 + (e1 + e2)).
    { replace (x + y) with ((s1 + s2) + (x + y - (s1 + s2))) by ring. eapply Rle_trans; [apply Rabs_triang|].
      pose proof (Rabs_triang s1 s2). lra. }
    assert (B : Rabs (r - (s1 + s2)) <= (1 + u) * (e1 + e2) + u * (A1 + A2)).
    { replace (r - (s1 + s2)) with ((r - (x + y)) + (x + y - (s1 + s2))) by ring. eapply Rle_trans; [apply Rabs_triang|].
      pose proof (Rmult_le_compat_l u _ _ (Rlt_le _ _ U) V). lra. }
    eapply Rle_trans; [exact B|]. unfold err. rewrite Em, <- tech_pow_Rmult. fold g. rewrite <- Em, plus_INR. unfold e1, e2. apply Req_le. ring.
  Qed.
  Lemma fma_step n p s A y r : Rabs s <= A -> Rabs (y - s) <= err n A -> Rabs (r - (p + y)) <= u * Rabs (p + y) + eta ->
    Rabs (r - (p + s)) <= err (S n) (Rabs p + A).
  Proof.
    intros HS H1 H. assert (0 <= A) by (pose proof (Rabs_pos s); lra). pose proof (Rabs_pos p) as Pp.
    pose proof (growth_ge n) as G. pose proof u_pos as U. pose proof eta_pos as T.
    assert (V : Rabs (p + y) <= Rabs p + A + err n A).
    { replace (p + y) with (p + (s + (y - s))) by ring. eapply Rle_trans; [apply Rabs_triang|]. pose proof (Rabs_triang s (y - s)). lra. }
    assert (B : Rabs (r - (p + s)) <= (1 + u) * err n A + u * (Rabs p + A) + eta).
    { replace (r - (p + s)) with ((r - (p + y)) + (y - s)) by ring. eapply Rle_trans; [apply Rabs_triang|].
      pose proof (Rmult_le_compat_l u _ _ (Rlt_le _ _ U) V). lra. }
    eapply Rle_trans; [exact B|]. unfold err. rewrite <- tech_pow_Rmult, S_INR. set (g := (1 + u) ^ n) in *.
    assert (X1 : u * Rabs p <= ((1 + u) * g - 1) * Rabs p) by (apply Rmult_le_compat_r; [lra|nra]).
    assert (X2 : eta <= (1 + u) * g * eta) by (rewrite <- (Rmult_1_l eta) at 1; apply Rmult_le_compat_r; [lra|nra]).
    set (k := INR n) in *. clearbody g k. nra.
  Qed.

  Lemma sum_cons t l : sum_number F (t :: l) = term_number F t + sum_number F l. Proof. reflexivity. Qed.
  Lemma abs_cons t l : sum_abs F (t :: l) = Rabs (term_number F t) + sum_abs F l. Proof. reflexivity. Qed.
  Lemma sum_nil : sum_number F [] = 0. Proof. reflexivity. Qed.
  Lemma abs_nil : sum_abs F [] = 0. Proof. reflexivity. Qed.
  Lemma sum_app l1 l2 : sum_number F (l1 ++ l2) = sum_number F l1 + sum_number F l2.
  Proof. induction l1 as [|t l1 IH]; [rewrite sum_nil; symmetry; apply Rplus_0_l|]. rewrite <- app_comm_cons, !sum_cons, IH. ring. Qed.
  Lemma abs_app l1 l2 : sum_abs F (l1 ++ l2) = sum_abs F l1 + sum_abs F l2.
  Proof. induction l1 as [|t l1 IH]; [rewrite abs_nil; symmetry; apply Rplus_0_l|]. rewrite <- app_comm_cons, !abs_cons, IH. ring. Qed.
  Lemma abs_pos l : 0 <= sum_abs F l.
  Proof. induction l as [|t l IH]; [rewrite abs_nil; lra|]. rewrite abs_cons. pose proof (Rabs_pos (term_number F t)). lra. Qed.
  Lemma abs_sum l : Rabs (sum_number F l) <= sum_abs F l.
  Proof.
    induction l as [|t l IH]; [rewrite abs_nil, sum_nil, Rabs_R0; lra|]. rewrite abs_cons, sum_cons.
    pose proof (Rabs_triang (term_number F t) (sum_number F l)). lra.
  Qed.
  Lemma sum_perm l l' : Permutation l l' -> sum_number F l = sum_number F l' /\ sum_abs F l = sum_abs F l'.
  Proof.
    induction 1 as [|t l l' _ [A B]|t s l|l1 l2 l3 _ [A1 B1] _ [A2 B2]]; rewrite ?abs_cons, ?sum_cons; auto.
    - now rewrite A, B.
    - split; ring.
    - split; congruence.
  Qed.
  Lemma error_err l : sum_error F l = err (length l) (sum_abs F l).
  Proof. reflexivity. Qed.

  Lemma add_error l1 l2 x y : generic_format radix2 fx x -> generic_format radix2 fx y ->
    Rabs (x - sum_number F l1) <= sum_error F l1 -> Rabs (y - sum_number F l2) <= sum_error F l2 ->
    Rabs (rnd (x + y) - sum_number F (l1 ++ l2)) <= sum_error F (l1 ++ l2).
  Proof.
    intros Fx Fy H1 H2. assert (Z : forall z, Rabs (z - sum_number F []) <= sum_error F [] -> z = 0).
    { intros z Hz. rewrite error_err in Hz. unfold err in Hz. rewrite sum_nil, abs_nil in Hz. cbn in Hz.
      pose proof (Rabs_pos (z - 0)). assert (E : Rabs (z - 0) = 0) by nra. rewrite Rminus_0_r in E. destruct (Req_dec z 0) as [|N]; auto.
      now apply Rabs_no_R0 in N. }
    destruct l1 as [|t1 l1].
    { rewrite (Z x H1), Rplus_0_l, round_generic by (auto; apply valid_rnd_N). exact H2. }
    destruct l2 as [|t2 l2].
    { rewrite (Z y H2), Rplus_0_r, round_generic by (auto; apply valid_rnd_N). now rewrite app_nil_r. }
    rewrite error_err, sum_app, abs_app, app_length. apply (add_step _ _ _ _ _ _ x y); auto using abs_sum; try (cbn; lia). now apply rnd_add.
  Qed.
  Lemma fma_error a b l y : Rabs (y - sum_number F l) <= sum_error F l ->
    Rabs (rnd (num a * num b + y) - sum_number F (Prod a b :: l)) <= sum_error F (Prod a b :: l).
  Proof. intros H. rewrite error_err. apply (fma_step _ _ _ _ y); [apply abs_sum|exact H|apply rnd_error]. Qed.
  Lemma mul_error a b : Rabs (rnd (num a * num b) - sum_number F [Prod a b]) <= sum_error F [Prod a b].
  Proof.
    rewrite <- (Rplus_0_r (num a * num b)). apply fma_error. rewrite error_err. unfold err. rewrite sum_nil, abs_nil, Rminus_0_r, Rabs_R0. cbn. lra.
  Qed.
  Lemma near_small l r : Rabs (r - sum_number F l) <= sum_error F l -> sum_abs F l + sum_error F l < top -> Rabs r < top.
  Proof.
    intros H B. replace r with (sum_number F l + (r - sum_number F l)) by ring.
    eapply Rle_lt_trans; [apply Rabs_triang|]. pose proof (abs_sum l). lra.
  Qed.
  Lemma small_part l l' : (length l <= length l')%nat -> sum_abs F l <= sum_abs F l' ->
    sum_abs F l' + sum_error F l' < top -> sum_abs F l + sum_error F l < top.
  Proof.
    intros HL HA H. pose proof (err_mono _ _ _ _ HL (abs_pos l) HA) as K. rewrite !error_err in *. lra.
  Qed.

  Lemma evaluates_near l r : evaluates M l r -> approximates F l r.
  Proof.
    induction 1 as [|a|a b|l1 l2 a b _ [IA IA'] _ [IB IB']|a b l c _ [IC IC']|l l' r HP _ [IH IH']].
    - split.
      + intros _. split; [constructor|]. rewrite error_err. unfold err. rewrite sum_nil, abs_nil.
        assert (E : num (rzero (c := words F)) = 0).
        { unfold number. now rewrite decode_zero. }
        rewrite E, Rminus_0_r, Rabs_R0. cbn. lra.
      + intros _ _. unfold finite. now rewrite decode_zero.
    - split; [|intros H _; now inversion H].
      intros H. split; [repeat constructor; auto|]. rewrite error_err, sum_cons, sum_nil, Rplus_0_r, Rminus_diag_eq, Rabs_R0 by reflexivity.
      apply err_pos. apply abs_pos.
    - split.
      + intros H. apply mul_finite in H as (A & B & ->). split; [repeat constructor; auto|]. apply mul_error.
      + intros H B. inversion H as [|t l HT _]; subst. destruct HT as [HA HB]. apply finite_mul; auto. eapply near_small; [apply mul_error|exact B].
    - split.
      + intros H. apply add_finite in H as (A & B & ->). destruct (IA A) as [FA EA], (IB B) as [FB EB].
        split; [now apply Forall_app|]. apply add_error; auto using num_format.
      + intros H B. apply Forall_app in H as [HA HB]. pose proof (abs_pos l1). pose proof (abs_pos l2).
        assert (A1 : fin a). { apply IA'; auto. eapply small_part; [| |exact B]; [rewrite app_length; lia|rewrite abs_app; lra]. }
        assert (B1 : fin b). { apply IB'; auto. eapply small_part; [| |exact B]; [rewrite app_length; lia|rewrite abs_app; lra]. }
        apply finite_add; auto. eapply near_small; [|exact B]. apply add_error; auto using num_format; [apply IA|apply IB]; auto.
    - split.
      + intros H. apply fma_finite in H as (A & B & C & ->). destruct (IC C) as [FC EC].
        split; [repeat constructor; auto|]. now apply fma_error.
      + intros H B. inversion H as [|t l0 HT HC]; subst. destruct HT as [HA HB].
        assert (C1 : fin c).
        { apply IC'; auto. eapply small_part; [| |exact B]; [cbn; lia|]. rewrite abs_cons. pose proof (Rabs_pos (term_number F (Prod a b))). lra. }
        apply finite_fma; auto. eapply near_small; [|exact B]. apply fma_error. now apply IC.
    - destruct (sum_perm l l' HP) as [PS PA]. pose proof (Permutation_length HP) as PL. unfold approximates. rewrite !error_err, <- PS, <- PA, <- PL.
      assert (PF : Forall (finite_term F) l <-> Forall (finite_term F) l').
      { split; apply Permutation_Forall; auto using Permutation_sym. }
      rewrite error_err in *. split; [intros H; destruct (IH H); tauto|intros H; apply IH'; tauto].
  Qed.
End Errors.

Lemma C62_sums_proof : C62_sums_statement.
Proof. intros F M l r HM H. exact (evaluates_near F M HM l r H). Qed.

Lemma C62_two_results_proof : C62_two_results_statement.
Proof.
  intros F l r r' [H _] [H' _] A A'. destruct (H A) as [_ E], (H' A') as [_ E']. revert E E'. generalize (sum_number F l) (sum_error F l) (number F r) (number F r').
  intros s e a b E E'. replace (a - b)%real with ((a - s) - (b - s))%real by ring.
  eapply Rle_trans; [apply Rabs_triang|]. rewrite Rabs_Ropp. lra.
Qed.

Lemma nodup_filter (f : Z -> Z) (d : Z) (l g : list Z) : NoDup l -> NoDup g -> (forall s, In s g <-> In s l /\ f s = d) ->
  Permutation (filter (fun s => f s =? d) l) g.
Proof.
  intros Nl Ng H. apply NoDup_Permutation; auto using NoDup_filter. intros s. rewrite filter_In, H, Z.eqb_eq. tauto.
Qed.

Lemma C62_reductions_proof : C62_reductions_statement.
Proof.
  intros F M red HM HA. split; [|split].
  - intros Px Py same ts td pb dt rg Hacc HF x HX Hsh d Hd.
    destruct (C61_sum_reduce Px Py same ts td pb dt rg Hacc) as (dst & _ & Hp & K).
    destruct (K (words F) M red x HA HX) as (KD & _).
    { intros s s' Hs Hs' E. apply (Hsh (dst s)); auto; apply Hp; auto. }
    destruct (KD d Hd) as (t & Et & _ & V). exists t. split; [exact Et|]. intros g i Ng Hg.
    apply (C62_sums_proof F M); auto. eapply ev_order; [|apply V]. apply Permutation_map. apply nodup_filter; auto.
    { apply Hacc. }
    intros s. rewrite Hg. split; intros [Hs E]; (split; [exact Hs|]); [symmetry|]; apply (Hp HF); auto.
  - intros Px Py same ts td pb dt rg Hacc HF x dy HX HDY Hsh s Hs.
    destruct (C61_broadcast Px Py same ts td pb dt rg Hacc) as (src & Hin & Hp & K).
    destruct (K (words F) M red x dy HA HX HDY Hsh) as (_ & KD & _).
    destruct (KD s Hs) as (t & Et & St & V). exists t. split; [exact Et|]. split; [exact St|]. intros g i Ng Hg.
    apply (C62_sums_proof F M); auto. eapply ev_order; [|apply V]. apply Permutation_map. apply nodup_filter; auto.
    { apply Hacc. }
    intros d. rewrite Hg. split; intros [Hd E]; (split; [exact Hd|]).
    + symmetry. now apply Hp.
    + now apply Hp.
  - intros P ar ak x z HP Hax Hx Hz v Hv.
    destruct (C61_all_sum_reduce (words F) M red P ar ak x z HA HP Hax Hx Hz) as (K & _).
    destruct (K v Hv) as (t & Et & St & V). exists t. split; [exact Et|]. split; [exact St|]. intros g i Ng Hg.
    apply (C62_sums_proof F M); auto.
Qed.

Lemma C62_linear_proof : C62_linear_statement.
Proof.
  intros F M red torch back_x back_w back_b Px Py Pw fi fo same_xw same_wy dt dt' rg rg' lead n_in n_out X W b weight bias x
    HM HA HT HB Hpart Harg Hx Hw Hb Hother use_bias y.
  destruct (C61_linear (words F) M red torch back_x back_w back_b Px Py Pw fi fo same_xw same_wy dt dt' rg rg' lead n_in n_out X W b weight bias x
    HA HT Hpart Harg Hx Hw Hb Hother) as ((Y & (SY & VY) & BY) & _ & _ & KB).
  split; [|split].
  - exists Y. split; [|exact BY]. split; [exact SY|]. intros l o Hl Ho. apply (C62_sums_proof F M); auto.
  - intros v. destruct (HT v lead n_in n_out X W b Harg) as (Ys & E & SS & VS). exists Ys. split; [exact E|]. split; [exact SS|].
    intros l o Hl Ho. apply (C62_sums_proof F M); auto.
  - intros dY dy SdY Hdy Hdo. destruct (KB dY dy HB SdY Hdy Hdo) as ((dX & (SX & VX) & BX) & (dW & (SW & VW) & BW) & Kb & _).
    split; [|split].
    + exists dX. split; [|exact BX]. split; [exact SX|]. intros l f Hl Hf. apply (C62_sums_proof F M); auto.
    + exists dW. split; [|exact BW]. split; [exact SW|]. intros o f Ho Hf. apply (C62_sums_proof F M); auto.
    + intros Nb. destruct (Kb Nb) as (db & (Sb & Vb) & Bb). exists db. split; [|exact Bb]. split; [exact Sb|].
      intros o Ho. apply (C62_sums_proof F M); auto.
Qed.

Theorem C62_sums : C62_sums_statement.
Proof. exact C62_sums_proof. Qed.
Theorem C62_two_results : C62_two_results_statement.
Proof. exact C62_two_results_proof. Qed.
Theorem C62_reductions : C62_reductions_statement.
Proof. exact C62_reductions_proof. Qed.
Theorem C62_linear : C62_linear_statement.
Proof. exact C62_linear_proof. Qed.

(** * Examples

    Such a machine exists for every format. *)
Section Machine.
  Variable F : format.
  Notation float := (BinarySingleNaN.binary_float (f_prec F) (f_max F)).

  Lemma nan_ok : nan_pl (f_prec F) 1 = true.
  Proof. apply Z.ltb_lt. unfold f_prec. pose proof (f_mantissa_ok F). cbn. lia. Qed.
  Definition some_nan : { x : Binary.binary_float (f_prec F) (f_max F) | Binary.is_nan _ _ x = true } :=
    exist _ (Binary.B754_nan (f_prec F) (f_max F) false 1 nan_ok) eq_refl.
  Definition encode (x : float) : words F :=
    to_word (f_width F) (bits_of_binary_float (f_mantissa F) (f_exponent F) (BSN2B (f_prec F) (f_max F) some_nan x)).
  Lemma decode_encode x : decode F (encode x) = x.
  Proof.
    unfold decode, encode, to_word, bits. cbn [proj1_sig].
    set (y := BSN2B (f_prec F) (f_max F) some_nan x).
    assert (E : bits_of_binary_float (f_mantissa F) (f_exponent F) y mod 2 ^ Z.of_nat (f_width F) = bits_of_binary_float (f_mantissa F) (f_exponent F) y).
    { apply Z.mod_small. unfold f_width. rewrite Z2Nat.id by (pose proof (f_mantissa_ok F); pose proof (f_exponent_ok F); lia).
      apply bits_of_binary_float_range; [apply f_mantissa_ok|apply f_exponent_ok]. }
    etransitivity; [apply f_equal, f_equal, E|].
    etransitivity; [apply f_equal, (binary_float_of_bits_of_binary_float (f_mantissa F) (f_exponent F))|]. apply B2BSN_BSN2B.
  Qed.
  Definition float_machine : machine (words F) :=
    let Hp := f_prec_pos F in let Hm := f_prec_max F in
    mkmachine (words F)
      (fun a b => encode (@BinarySingleNaN.Bplus _ _ Hp Hm mode_NE (decode F a) (decode F b)))
      (fun a b => encode (@BinarySingleNaN.Bmult _ _ Hp Hm mode_NE (decode F a) (decode F b)))
      (fun a b c => encode (@BinarySingleNaN.Bfma _ _ Hp Hm mode_NE (decode F a) (decode F b) (decode F c))).
  Lemma float_machine_ieee : ieee F float_machine.
  Proof. repeat split; intros; apply decode_encode. Qed.
End Machine.

(** Half precision; 0x3c00 is 1, 0x6800 is 2048, 0x6801 is 2050.  Of the workers 10, 11
    and 12 the first two add 2048, 1 and 1 in different orders. *)
Definition half : format := mkformat 10 5 eq_refl eq_refl eq_refl.
Definition hf (z : Z) : words half := to_word 16 z.
Definition hf_bits (a : words half) : Z := @bits 16 a.
Definition ex62_x (v : Z) : tensor (words half) := @mkt (words half) [1] (fun _ => if v =? 10 then hf 0x6800 else hf 0x3c00).

Example C62_reductions_example :
  ieee half (float_machine half) /\ adds (float_machine half) (alternate (float_machine half)) /\
  part_ok ex17_P /\ axes_given 2 (Some [1]) None /\
  let y := all_sum_reduce_layer_by (alternate (float_machine half)) ex17_P (Some [1]) None ex62_x ex62_x in
  hf_bits (tat (val (y 10)) [0]) = 0x6800 /\ hf_bits (tat (val (y 11)) [0]) = 0x6801 /\
  finite half (tat (val (y 10)) [0]) /\ finite half (tat (val (y 11)) [0]).
Proof.
  split; [apply float_machine_ieee|]. split; [apply alternate_adds|].
  split; [repeat split; try discriminate; repeat constructor; simpl; lia|]. split; [repeat constructor; lia|].
  cbv zeta. repeat split; vm_compute; reflexivity.
Qed.

(** 2048 + 1 + 1 is small enough; the bound of the error is less than 4. *)
Example C62_sums_example :
  let l := [Num (hf 0x6800); Num (hf 0x3c00); Num (hf 0x3c00)] in
  Forall (finite_term half) l /\ sum_number half l = 2050%real /\ (sum_error half l < 4)%real /\
  (sum_abs half l + sum_error half l < bpow radix2 (f_max half))%real.
Proof.
  assert (N1 : number half (hf 0x3c00) = 1%real).
  { unfold number. rewrite <- BinarySingleNaN.SF2R_B2SF.
    replace (BinarySingleNaN.B2SF (decode half (hf 0x3c00))) with (SpecFloat.S754_finite false 1024 (-10)) by (symmetry; vm_compute; reflexivity).
    cbn. unfold F2R. cbn. lra. }
  assert (N2 : number half (hf 0x6800) = 2048%real).
  { unfold number. rewrite <- BinarySingleNaN.SF2R_B2SF.
    replace (BinarySingleNaN.B2SF (decode half (hf 0x6800))) with (SpecFloat.S754_finite false 1024 1) by (symmetry; vm_compute; reflexivity).
    cbn. unfold F2R. cbn. lra. }
  assert (S : sum_number half [Num (hf 0x6800); Num (hf 0x3c00); Num (hf 0x3c00)] = 2050%real).
  { rewrite !sum_cons, sum_nil. unfold term_number. rewrite N1, N2. lra. }
  assert (A : sum_abs half [Num (hf 0x6800); Num (hf 0x3c00); Num (hf 0x3c00)] = 2050%real).
  { rewrite !abs_cons, abs_nil. unfold term_number. rewrite N1, N2, !Rabs_pos_eq by lra. lra. }
  assert (E : (sum_error half [Num (hf 0x6800); Num (hf 0x3c00); Num (hf 0x3c00)] < 4)%real).
  { rewrite error_err, A. unfold err, unit_error, tiny_error. cbn. lra. }
  cbv zeta. split; [repeat constructor|]. split; [exact S|]. split; [exact E|]. rewrite A. eapply Rlt_trans; [apply Rplus_lt_compat_l, E|]. cbn. lra.
Qed.

(** The layer of C32's example, in half precision. *)
Definition hz (z : Z) : words half :=
  encode half (BinarySingleNaN.binary_normalize (f_prec half) (f_max half) (f_prec_pos half) (f_prec_max half) mode_NE z 0 false).
Definition hmap (t : tensor Zring) : tensor (words half) := @mkt (words half) (tshape t) (fun i => hz (tat t i)).
Definition ex62_b : tensor (words half) := @mkt (words half) [4] (fun i => hz (1 + nth 0 i 0)).
Definition ex62_bias (v : Z) : tensor (words half) :=
  match index_in ex32_w v with Some idx => block (balanced [4] [3]) [nth 0 idx 0] ex62_b | None => @mkt (words half) [0] (fun _ => hf 0) end.
Notation ex62_M := (float_machine half).

Example C62_linear_example :
  linear_partitions ex32_x ex32_y ex32_w 2 3 false false /\
  linear_arguments [2] 5 4 (hmap ex32_X) (hmap ex32_W) (Some ex62_b) /\
  torch_linear_by ex62_M (alternate_torch ex62_M) /\
  torch_linear_back_by ex62_M (alternate_x ex62_M) (alternate_w ex62_M) (alternate_b ex62_M) /\
  (forall i v, worker_at ex32_x [0; i] v -> teq (hmap (ex32_in v)) (block (last_cut [2] 5 2) (piece [2] i) (hmap ex32_X))) /\
  (forall idx v, worker_at ex32_w idx v -> teq (hmap (ex32_weight v)) (block (balanced [4; 5] [3; 2]) idx (hmap ex32_W))) /\
  (forall j v, worker_at ex32_w [j; 0] v -> teq (ex62_bias v) (block (balanced [4] [3]) [j] ex62_b)) /\
  let y := linear_forward_by (alternate ex62_M) (alternate_torch ex62_M) ex32_x ex32_y ex32_w true false false
             (fun _ => 0) (fun _ => 0) (fun _ => true) (fun _ => true) (fun v => hmap (ex32_weight v)) ex62_bias (fun v => hmap (ex32_in v)) in
  (* the last element, distributed and on one worker: 10560 and 10568 *)
  hf_bits (tat (val (y 1)) [1; 0]) = 28968 /\
  hf_bits (tat (val (alternate_torch ex62_M 1 (hmap ex32_W) (Some ex62_b) (hmap ex32_X))) [1; 3]) = 28969.
Proof.
  destruct C32_example as (HP & _).
  assert (K : part_ok ex32_x /\ part_ok ex32_w) by (split; apply HP).
  destruct K as [Kx Kw]. split; [exact HP|]. split.
  { repeat (split; [reflexivity|]). split; [repeat constructor; lia|]. lia. }
  split; [apply alternate_torch_ok|]. split; [apply alternate_back_ok|]. split; [|split; [|split]].
  - intros i v Hv. unfold ex32_in. apply index_in_spec in Hv; auto. rewrite Hv. apply teq_refl.
  - intros i v Hv. unfold ex32_weight. apply index_in_spec in Hv; auto. rewrite Hv. apply teq_refl.
  - intros i v Hv. unfold ex62_bias. apply index_in_spec in Hv; auto. rewrite Hv. apply teq_refl.
  - cbv zeta. split; vm_compute; reflexivity.
Qed.

Print Assumptions C62_sums.
Print Assumptions C62_two_results.
Print Assumptions C62_reductions.
Print Assumptions C62_linear.
