(** The layers of a network, one by one. *)

From Verif Require Import Prelude ModelSlicing ModelDecomposition ModelPartition SpecIndex SpecLayout SpecPartition ProofSlicing ProofDecomposition
  ProofPartition Ring Tensor Blocks ModelCollectives ModelBuffer P2P Rounds ModelRepartition PropRepartition ModelHaloMixin ModelHaloExchange
  PropHaloMixin PropHaloExchange ModelFeatureLayer SpecFeature PropFeatureLayer PropFeatureConv ModelFeatureGrad SpecFeatureGrad PropFeatureGrad PropConvGrad
  ModelMaxPoolGrad SpecMaxPoolGrad PropMaxPoolGrad ModelLinear ModelWorkGrad PropLinear PropLinearGrad ModelConv PropConv PropConvChannel PropConvGeneral
  ModelChannelGrad PropChannelGrad ModelGeneralGrad PropGeneralGrad ModelTraining SpecTraining ProofTraining.

Section Params.
  Context {R : CRing}.
  Variables (world : list Z) (hs : list home) (Th : list (@slots R)) (th : Z -> list (@slots R)).
  Hypothesis H : params_held world hs Th th.

  Lemma param_block k v idx : (k < length hs)%nat -> In v world -> h_at (nth k hs no_home) v idx ->
    teq (param k th v) (block (h_layout (nth k hs no_home)) idx (nth k (map value_of Th) no_tensor)).
  Proof.
    intros Hk Hv Hi. destruct H as (_ & H' & _). destruct (H' k Hk) as (N & _ & HF). specialize (HF v idx Hv Hi).
    change (@no_tensor R) with (value_of (R := R) []). rewrite map_nth. unfold param.
    destruct HF; [congruence|]. assumption.
  Qed.

  Lemma param_shape k : (k < length hs)%nat -> tshape (nth k (map value_of Th) no_tensor) = layout_shape (h_layout (nth k hs no_home)).
  Proof.
    intros Hk. destruct H as (_ & H' & _). destruct (H' k Hk) as (N & HS & _).
    change (@no_tensor R) with (value_of (R := R) []). rewrite map_nth. destruct HS; [congruence|]. assumption.
  Qed.

  Lemma param_dims k v : In v world -> nonneg_shape (tshape (param k th v)) /\ tshape (param k th v) <> [].
  Proof.
    intros Hv. destruct H as (_ & _ & HN). specialize (HN v Hv). unfold param.
    destruct (Nat.lt_ge_cases k (length (th v))) as [Hk|Hk].
    - rewrite Forall_forall in HN. pose proof (HN (nth k (th v) []) (nth_In _ [] Hk)) as HN'.
      generalize dependent (nth k (th v) []). intros s Hs. destruct s as [|t s]; [split; [constructor; [lia|constructor]|discriminate]|]. inversion Hs; assumption.
    - rewrite nth_overflow by exact Hk. split; [constructor; [lia|constructor]|discriminate].
  Qed.
  Lemma param_nonneg k v : In v world -> nonneg_shape (tshape (param k th v)).
  Proof. intros Hv. now apply param_dims. Qed.
End Params.

Lemma grads_one {R : CRing} world h (G : tensor R) ga :
  tshape G = layout_shape (h_layout h) ->
  (forall v idx, In v world -> h_at h v idx -> exists t, nth 0 (ga v) None = Some t /\ teq t (block (h_layout h) idx G)) ->
  grads_held world [h] [G] ga.
Proof. intros E H. split; [reflexivity|]. intros [|k] Hk; [|cbn in Hk; lia]. now split. Qed.

Lemma grads_two {R : CRing} world h h' (G G' : tensor R) ga :
  tshape G = layout_shape (h_layout h) -> tshape G' = layout_shape (h_layout h') ->
  (forall v idx, In v world -> h_at h v idx -> exists t, nth 0 (ga v) None = Some t /\ teq t (block (h_layout h) idx G)) ->
  (forall v idx, In v world -> h_at h' v idx -> exists t, nth 1 (ga v) None = Some t /\ teq t (block (h_layout h') idx G')) ->
  grads_held world [h; h'] [G; G'] ga.
Proof. intros E E' H H'. split; [reflexivity|]. intros [|[|k]] Hk; [| |cbn in Hk; lia]; now split. Qed.

Lemma no_grads {R : CRing} world (ga : Z -> list (option (tensor R))) : grads_held world [] [] ga.
Proof. split; [reflexivity|]. intros k Hk. cbn in Hk. lia. Qed.

Lemma empty_ok n : 0 <= n -> nonneg_shape [n; 0] /\ [n; 0] <> [].
Proof. intros H. split; [|discriminate]. repeat constructor; lia. Qed.

(** * Linear *)

Definition linear_homes (Pw : part) (fi fo n_in n_out : Z) (use_bias : bool) : list home :=
  mkhome (fun v idx => worker_at Pw idx v) (balanced [n_out; n_in] [fo; fi]) ::
  (if use_bias then [mkhome (fun v idx => exists j, idx = [j] /\ worker_at Pw [j; 0] v) (balanced [n_out] [fo])] else []).

Section Sum.
  Context {R : CRing}.
  Add Ring R_ring : (rth R).
  Lemma sumf_one {I} (i : I) (g : I -> R) : sumf [i] g = g i.
  Proof. cbn. ring. Qed.
End Sum.

Lemma sumf_indices1 {R : CRing} b (g : list Z -> R) : sumf (indices [b]) g = sumf (zrange b) (fun a => g [a]).
Proof.
  cbn [indices map]. rewrite sumf_flat_map. apply sumf_ext. intros a _. apply sumf_one.
Qed.

Lemma valid_one b l : valid_index [b] l -> exists a, l = [a].
Proof. intros H. inversion H as [|? a ? l' _ H']; subst. inversion H'; subst. now exists a. Qed.

Section Linear.
  Context {R : CRing}.
  Variables (world : list Z) (Px Py Pw : part) (fi fo : Z) (use_bias same_xw same_wy : bool) (dt dt' : Z -> Z) (rg rg' : Z -> bool) (b n_in n_out : Z).
  Hypothesis HP : linear_partitions Px Py Pw fi fo same_xw same_wy.
  Hypothesis Hin : forall v, In v (p_ranks Px) \/ In v (p_ranks Py) \/ In v (p_ranks Pw) -> In v world.
  Hypothesis Hb : 0 <= b.
  Hypothesis Hi : 0 <= n_in.
  Hypothesis Ho : 0 <= n_out.

  Lemma fi_pos : 0 < fi /\ 0 < fo.
  Proof.
    destruct HP as ((_ & _ & A & _) & (_ & _ & B & _) & _ & _ & _ & E1 & E2 & _). rewrite E1 in A. rewrite E2 in B.
    inversion A as [|? ? _ A']. inversion A'. inversion B as [|? ? _ B']. inversion B'. now split.
  Qed.

  Lemma cut_shape n P : 0 < P -> 0 <= n -> layout_shape (last_cut [b] n P) = [b; n].
  Proof.
    intros H Hn. unfold last_cut, layout_shape. cbn [map app]. f_equal; [unfold zsum; cbn; lia|]. f_equal.
    assert (E : layout_shape (balanced [n] [P]) = [n]) by (apply balanced_shape; repeat constructor; lia). now injection E.
  Qed.

  Lemma at_row P p idx v : p_shape P = [1; p] -> worker_at P idx v -> exists i, idx = [0; i].
  Proof.
    intros E [Hv _]. rewrite E in Hv. inversion Hv as [|? a ? l Ha Hl]; subst. inversion Hl as [|? c ? l' Hc Hl']; subst. inversion Hl'; subst.
    exists c. f_equal. lia.
  Qed.

  Lemma linear_sound : sound (R := R) world (mkplace Px (last_cut [b] n_in fi))
    (YLinear Px Py Pw use_bias same_xw same_wy dt dt' rg rg') (seq_linear b n_in n_out use_bias)
    (linear_homes Pw fi fo n_in n_out use_bias) (mkplace Py (last_cut [b] n_out fo)).
  Proof.
    intros Th th X x HT [HX HO] ps. cbn [pl_part pl_layout] in *. destruct fi_pos as [Hfi Hfo].
    set (W := weight_of ps).
    set (bb := bias_opt use_bias ps).
    set (Y := q_forward (seq_linear b n_in n_out use_bias) ps X).
    destruct HX as [EX HX]. rewrite cut_shape in EX by auto.
    assert (EW : tshape W = [n_out; n_in]).
    { unfold W, weight_of, ps. rewrite (param_shape _ _ _ _ HT) by (cbn; lia). cbn [linear_homes nth h_layout].
      apply balanced_shape; repeat constructor; lia. }
    assert (Hw : forall idx v, worker_at Pw idx v -> teq (param 0 th v) (block (balanced [n_out; n_in] [fo; fi]) idx W)).
    { intros idx v Hv. apply (param_block _ _ _ _ HT 0 v idx); [cbn; lia|apply Hin; right; right; eapply worker_at_In; eauto|exact Hv]. }
    assert (HBb : match bb with
                 | Some b => forall j v, worker_at Pw [j; 0] v -> teq (param 1 th v) (block (balanced [n_out] [fo]) [j] b)
                 | None => True end).
    { unfold bb, bias_opt. destruct use_bias; [|exact I]. intros j v Hv.
      apply (param_block _ _ _ _ HT 1 v [j]); [cbn; lia|apply Hin; right; right; eapply worker_at_In; eauto|exists j; now split]. }
    assert (HL : is_linear [b] n_in n_out X W bb Y).
    { split; [exact EX|]. split; [exact EW|]. split; [reflexivity|]. split; [repeat constructor; lia|]. do 2 (split; [lia|]). split.
      - unfold bb, bias_opt. destruct use_bias eqn:Eu; [|exact I]. unfold bias_of, ps.
        rewrite (param_shape _ _ _ _ HT) by (cbn; lia). cbn [linear_homes nth h_layout].
        apply balanced_shape; repeat constructor; lia.
      - intros l o Hl _. destruct (valid_one b l Hl) as [a ->]. cbn [Y q_forward seq_linear tat app nth].
        unfold bb, bias_opt. destruct use_bias; reflexivity. }
    assert (Ebb : match bb with Some _ => true | None => false end = use_bias) by (unfold bb, bias_opt; now destruct use_bias).
    assert (Hpass : forall v, In v (p_ranks Pw) \/ In v (p_ranks Py) -> ~ In v (p_ranks Px) -> nonneg_shape (tshape (x v)) /\ tshape (x v) <> []).
    { intros v Hv Hn. apply HO; auto. apply Hin. tauto. }
    assert (HXb : forall i v, worker_at Px [0; i] v -> teq (x v) (block (last_cut [b] n_in fi) (piece [b] i) X)) by (intros; now apply HX).
    pose proof (C32_proof R Px Py Pw fi fo same_xw same_wy dt dt' rg rg' [b] n_in n_out X W Y bb (param 0 th) (param 1 th) x HP HL HXb Hw HBb Hpass) as K.
    cbv zeta in K. rewrite Ebb in K. destruct K as (_ & K1 & K2 & K3).
    destruct HP as (_ & OkY & _ & _ & _ & SX & SY & SW & _).
    destruct HP as (OkX & _).
    assert (Hfor : forall v, In v world -> exists t, linear_forward Px Py Pw use_bias same_xw same_wy dt dt' rg rg' (param 0 th) (param 1 th) x v = Ok t /\
              (~ In v (p_ranks Py) -> nonneg_shape (tshape t) /\ tshape t <> [])).
    { intros v Hv. destruct (in_dec Z.eq_dec v (p_ranks Py)) as [Hy|Hy].
      - destruct (worker_at_exists Py v OkY Hy) as [idx Hidx]. destruct (at_row Py fo idx v SY Hidx) as [j ->].
        destruct (K1 j v Hidx) as (t & E & _). exists t. split; [exact E|]. now intros.
      - destruct (in_dec Z.eq_dec v (p_ranks Px)) as [Hx|Hx].
        + destruct (K2 v (or_introl Hx) Hy) as (t & n & E & Et & Hn). exists t. rewrite Et. split; [exact E|]. intros _. now apply empty_ok.
        + destruct (in_dec Z.eq_dec v (p_ranks Pw)) as [Hw'|Hw'].
          * destruct (K2 v (or_intror Hw') Hy) as (t & n & E & Et & Hn). exists t. rewrite Et. split; [exact E|]. intros _. now apply empty_ok.
          * exists (x v). split; [now apply K3|]. intros _. now apply HO. }
    split.
    { destruct (returns_exists world _ (fun v Hv => match Hfor v Hv with ex_intro _ t (conj E _) => ex_intro _ t E end)) as [y Hy].
      exists x, y. exact Hy. }
    intros saved out HF. cbn [forward] in HF. split.
    { split; cbn [pl_part pl_layout].
      - split; [rewrite cut_shape by auto; reflexivity|].
        intros idx v Hv. destruct (at_row Py fo idx v SY Hv) as [j ->]. destruct (K1 j v Hv) as (t & E & T).
        rewrite HF in E by (apply Hin; right; left; eapply worker_at_In; eauto). injection E as ->. exact T.
      - intros v Hv Hn. destruct (Hfor v Hv) as (t & E & T). rewrite HF in E by auto. injection E as ->. auto. }
    intros dY dy [[EY HY] HOY]. cbn [pl_part pl_layout] in *. rewrite cut_shape in EY by auto.
    set (q := seq_linear (R := R) b n_in n_out use_bias).
    set (db := mkt (R := R) [n_out] (fun i => sumf (zrange b) (fun a => tat dY [a; nth 0 i 0]))).
    set (dW := mkt (R := R) [n_out; n_in] (fun i => sumf (zrange b) (fun a => rmul (tat dY [a; nth 0 i 0]) (tat X [a; nth 1 i 0])))).
    assert (HG : is_linear_gradient [b] n_in n_out X W dY (q_back q ps X dY) dW db).
    { split; [exact EY|]. do 3 (split; [reflexivity|]). split; [|split].
      - intros l k Hl _. destruct (valid_one b l Hl) as [a ->]. reflexivity.
      - intros o k _ _. rewrite sumf_indices1. reflexivity.
      - intros o _. rewrite sumf_indices1. reflexivity. }
    assert (HYb : forall j d, worker_at Py [0; j] d -> teq (dy d) (block (last_cut [b] n_out fo) (piece [b] j) dY)) by (intros; now apply HY).
    assert (HpassY : forall v, In v (p_ranks Px) \/ In v (p_ranks Pw) -> ~ In v (p_ranks Py) -> nonneg_shape (tshape (dy v)) /\ tshape (dy v) <> []).
    { intros v Hv Hn. apply HOY; auto. apply Hin. tauto. }
    pose proof (C50_proof R Px Py Pw fi fo same_xw same_wy dt dt' rg rg' [b] n_in n_out X W Y dY (q_back q ps X dY) dW db bb (param 0 th) (param 1 th) x dy
      HP HL HG HXb Hw HBb HYb Hpass HpassY) as K.
    cbv zeta in K. rewrite Ebb in K. destruct K as (B1 & B2 & B3 & _ & B4 & B5).
    assert (Hback : forall v, In v world -> exists t, linear_backward Px Py Pw use_bias same_xw same_wy dt dt' rg rg' (param 0 th) (param 1 th) x dy v = Ok t /\
              (~ In v (p_ranks Px) -> nonneg_shape (tshape t) /\ tshape t <> [])).
    { intros v Hv. destruct (in_dec Z.eq_dec v (p_ranks Px)) as [Hx|Hx].
      - destruct (worker_at_exists Px v OkX Hx) as [idx Hidx]. destruct (at_row Px fi idx v SX Hidx) as [j ->].
        destruct (B1 j v Hidx) as (t & E & _). exists t. split; [exact E|]. now intros.
      - destruct (in_dec Z.eq_dec v (p_ranks Pw)) as [Hw'|Hw'].
        + destruct (B4 v (or_introl Hw') Hx) as (t & n & E & Et & Hn). exists t. rewrite Et. split; [exact E|]. intros _. now apply empty_ok.
        + destruct (in_dec Z.eq_dec v (p_ranks Py)) as [Hy|Hy].
          * destruct (B4 v (or_intror Hy) Hx) as (t & n & E & Et & Hn). exists t. rewrite Et. split; [exact E|]. intros _. now apply empty_ok.
          * exists (dy v). split; [now apply B5|]. intros _. now apply HOY. }
    split.
    { destruct (returns_exists world _ (fun v Hv => match Hback v Hv with ex_intro _ t (conj E _) => ex_intro _ t E end)) as [dx Hdx].
      exists dx. eexists. split; [exact Hdx|reflexivity]. }
    intros dx ga [HR ->]. split.
    { split; cbn [pl_part pl_layout].
      - split; [rewrite cut_shape by auto; reflexivity|].
        intros idx v Hv. destruct (at_row Px fi idx v SX Hv) as [j ->]. destruct (B1 j v Hv) as (t & E & T).
        rewrite HR in E by (apply Hin; left; eapply worker_at_In; eauto). injection E as ->. exact T.
      - intros v Hv Hn. destruct (Hback v Hv) as (t & E & T). rewrite HR in E by auto. injection E as ->. auto. }
    assert (SW' : tshape dW = layout_shape (balanced [n_out; n_in] [fo; fi])).
    { symmetry. apply balanced_shape; repeat constructor; lia. }
    assert (GW : forall v idx, In v world -> worker_at Pw idx v -> exists t,
       got (linear_weight_gradient Px Py Pw use_bias same_xw same_wy dt dt' rg rg' (param 0 th) (param 1 th) x dy v) = Some t /\
       teq t (block (balanced [n_out; n_in] [fo; fi]) idx dW)).
    { intros v idx _ Hv. destruct (B2 idx v Hv) as (t & E & T). exists t. rewrite E. now split. }
    cbn [q_grads seq_linear]. fold dW db. unfold linear_homes. destruct use_bias eqn:Eu.
    - apply grads_two; cbn [h_at h_layout nth]; auto.
      + symmetry. apply balanced_shape; repeat constructor; lia.
      + intros v idx _ (j & -> & Hv). destruct (B3 j v Hv) as (t & E & T); [discriminate|]. exists t. rewrite E. now split.
    - apply grads_one; cbn [h_at h_layout nth]; auto.
  Qed.
End Linear.

(** * Activations *)

Section Activation.
  Context {R : CRing}.
  Variables (world : list Z) (p : place) (act slope : R -> R).

  Lemma activation_sound : sound world p (YActivation act slope) (seq_activation act slope) [] p.
  Proof.
    intros Th th X x _ [[EX HX] HO] ps. split; [now exists x; eexists|].
    intros saved out ->. split.
    { split.
      - split; [exact EX|]. intros idx v Hv. destruct (HX idx v Hv) as [E1 E2]. split; [exact E1|].
        intros i Hi. cbn in *. now rewrite E2.
      - intros v Hv Hn. cbn. now apply HO. }
    intros dY dy [[EY HY] HOY]. split; [now eexists; eexists|].
    intros dx ga [-> ->]. split; [|apply no_grads]. split.
    - split; [exact EX|]. intros idx v Hv. destruct (HX idx v Hv) as [E1 E2]. destruct (HY idx v Hv) as [F1 F2].
      split; [exact F1|]. intros i Hi. cbn in *. rewrite F2 by exact Hi. rewrite E2; [reflexivity|].
      rewrite E1. rewrite F1 in Hi. exact Hi.
    - intros v Hv Hn. cbn. now apply HOY.
  Qed.
End Activation.

(** * Reshapes *)

Definition whole (s : list Z) : layout := map (fun n => [n]) s.
Definition ones (s : list Z) : list Z := map (fun _ => 1) s.
Definition zeros (s : list Z) : list Z := map (fun _ => 0) s.

Lemma whole_shape s : layout_shape (whole s) = s.
Proof. induction s as [|n s IH]; cbn; [reflexivity|]. f_equal; [unfold zsum; cbn; lia|exact IH]. Qed.

Lemma valid_ones s i : valid_index (ones s) i -> i = zeros s.
Proof.
  revert i. induction s as [|n s IH]; intros i H; inversion H; subst; [reflexivity|]. cbn. f_equal; [lia|]. now apply IH.
Qed.

Lemma valid_zeros s : valid_index (ones s) (zeros s).
Proof. induction s as [|n s IH]; constructor; [lia|exact IH]. Qed.

Lemma row_major_ones s : row_major (ones s) (zeros s) = 0 /\ zprod (ones s) = 1.
Proof.
  induction s as [|n s [IH1 IH2]]; [split; reflexivity|]. cbn [ones zeros map row_major].
  change (map (fun _ : Z => 1) s) with (ones s). change (map (fun _ : Z => 0) s) with (zeros s).
  change (zprod (1 :: ones s)) with (1 * zprod (ones s)). lia.
Qed.

Lemma whole_block s : block_shape (whole s) (zeros s) = s /\ block_lo (whole s) (zeros s) = zeros s.
Proof.
  induction s as [|n s [IH1 IH2]]; [split; reflexivity|]. unfold block_shape, block_lo in *. cbn. split; f_equal; auto.
Qed.

Lemma vadd_zeros s i : length i = length s -> vadd (zeros s) i = i.
Proof.
  revert i. induction s as [|n s IH]; intros [|a i] H; cbn in *; try lia; auto. f_equal. apply IH. lia.
Qed.

Lemma zprod_pos_shape s : nonneg_shape s -> 0 < zprod s -> pos_shape s.
Proof.
  induction 1 as [|n s Hn Hs IH]; intros H; [constructor|]. change (zprod (n :: s)) with (n * zprod s) in H.
  assert (0 < n) by (destruct (Z.eq_dec n 0); [subst; lia|lia]). constructor; [assumption|]. apply IH. nia.
Qed.

Lemma block_cons {R : CRing} e M i idx (X : tensor R) a k :
  tat (block (e :: M) (i :: idx) X) (a :: k) = tat X (zsum (firstn (Z.to_nat i) e) + a :: vadd (block_lo M idx) k).
Proof. reflexivity. Qed.

Section Reshape.
  Context {R : CRing}.
  Variables (world : list Z) (P P' : part) (e s s' : list Z).
  Hypothesis HP : part_ok P.
  Hypothesis HP' : part_ok P'.
  Hypothesis Er : p_ranks P' = p_ranks P.
  Hypothesis Es : p_shape P = Z.of_nat (length e) :: ones s.
  Hypothesis Es' : p_shape P' = Z.of_nat (length e) :: ones s'.
  Hypothesis Hs : nonneg_shape s.
  Hypothesis Hs' : nonneg_shape s'.
  Hypothesis Hz : zprod s' = zprod s.

  Lemma reshaped_at (t : tensor R) n m a i : tshape t = n :: s -> valid_index s' i ->
    tat (reshaped (m :: s') t) (a :: i) = tat t (a :: cart_coords s (row_major s' i)) /\
    valid_index s (cart_coords s (row_major s' i)).
  Proof.
    intros E Hi. pose proof (row_major_bound s' i Hi) as B. rewrite Hz in B. split.
    - cbn [reshaped tat]. rewrite E. cbn [row_major cart_coords]. f_equal. rewrite Hz. f_equal.
      + rewrite Z.add_comm, Z.div_add by lia. rewrite Z.div_small by exact B. lia.
      + f_equal. rewrite Z.add_comm, Z.mod_add by lia. now apply Z.mod_small.
    - apply cart_coords_spec; [|exact B]. apply zprod_pos_shape; [exact Hs|lia].
  Qed.

  Lemma reshape_worker idx v : worker_at P' idx v -> exists i, idx = i :: zeros s' /\ worker_at P (i :: zeros s) v.
  Proof.
    intros [Hv E]. rewrite Es' in Hv, E. inversion Hv as [|? i ? l Hi Hl]; subst. apply valid_ones in Hl. subst l.
    exists i. split; [reflexivity|]. split.
    - rewrite Es. constructor; [exact Hi|]. apply valid_zeros.
    - rewrite Es. rewrite <- Er. rewrite <- E. cbn [row_major].
      destruct (row_major_ones s) as [-> ->]. destruct (row_major_ones s') as [-> ->]. reflexivity.
  Qed.

  Lemma reshape_held m X x y :
    held (R := R) world (mkplace P (e :: whole s)) X x -> m = zsum e ->
    (forall i v, worker_at P (i :: zeros s) v -> y v = reshaped (nth (Z.to_nat i) e 0 :: s') (x v)) ->
    (forall v, ~ In v (p_ranks P) -> y v = x v) ->
    held world (mkplace P' (e :: whole s')) (reshaped (m :: s') X) y.
  Proof.
    intros [[EX HX] HO] -> Hy Ho. cbn [pl_part pl_layout] in *. split; cbn [pl_part pl_layout].
    - split; [cbn; f_equal; now rewrite <- (whole_shape s') at 1|].
      intros idx v Hv. destruct (reshape_worker idx v Hv) as (i & -> & Hw). destruct (HX _ _ Hw) as [E1 E2].
      rewrite (Hy i v Hw). destruct (whole_block s') as [B1 B2]. destruct (whole_block s) as [B3 B4].
      assert (E3 : tshape (x v) = nth (Z.to_nat i) e 0 :: s).
      { rewrite E1. unfold block, block_shape. cbn. f_equal. exact B3. }
      split.
      + cbn. unfold block_shape. cbn. f_equal. symmetry. exact B1.
      + intros k Hk. cbn [tshape reshaped] in Hk. inversion Hk as [|? a ? k' Ha Hk']; subst.
        destruct (reshaped_at (x v) _ (nth (Z.to_nat i) e 0) a k' E3 Hk') as [-> Hc].
        rewrite block_cons, B2.
        rewrite vadd_zeros by (rewrite <- (valid_index_length _ _ Hk'); reflexivity).
        assert (EX' : tshape X = zsum e :: s) by (rewrite EX; cbn; f_equal; apply whole_shape).
        destruct (reshaped_at X _ (zsum e) (zsum (firstn (Z.to_nat i) e) + a) k' EX' Hk') as [-> _].
        rewrite E2 by (rewrite E3; constructor; auto). rewrite block_cons, B4.
        rewrite vadd_zeros; [reflexivity|]. now apply valid_index_length in Hc.
    - rewrite Er. intros v Hv Hn. rewrite Ho by exact Hn. now apply HO.
  Qed.
End Reshape.

Section ReshapeLayer.
  Context {R : CRing}.
  Variables (world : list Z) (P P' : part) (e s s' : list Z).
  Hypothesis HP : part_ok P.
  Hypothesis HP' : part_ok P'.
  Hypothesis Er : p_ranks P' = p_ranks P.
  Hypothesis Es : p_shape P = Z.of_nat (length e) :: ones s.
  Hypothesis Es' : p_shape P' = Z.of_nat (length e) :: ones s'.
  Hypothesis Hs : nonneg_shape s.
  Hypothesis Hs' : nonneg_shape s'.
  Hypothesis Hz : zprod s' = zprod s.

  Lemma reshape_sound : sound (R := R) world (mkplace P (e :: whole s)) (YReshape P s') (seq_reshape s') [] (mkplace P' (e :: whole s')).
  Proof.
    intros Th th X x _ HX ps. split; [now exists x; eexists|].
    assert (EX : tshape X = zsum e :: s) by (rewrite (proj1 (proj1 HX)); cbn; f_equal; apply whole_shape).
    assert (Ex : forall i v, worker_at P (i :: zeros s) v -> tshape (x v) = nth (Z.to_nat i) e 0 :: s).
    { intros i v Hw. destruct HX as [[_ HX] _]. cbn [pl_part pl_layout] in HX. rewrite (proj1 (HX _ _ Hw)). cbn. unfold block_shape. cbn.
      f_equal. apply (proj1 (whole_block s)). }
    intros saved out ->. split.
    { apply (reshape_held world P P' e s s' Er Es Es' Hs Hz _ X x); auto.
      - now rewrite EX.
      - intros i v Hw. rewrite (proj2 (is_active_spec _ _) (worker_at_In _ _ _ Hw)). now rewrite (Ex i v Hw).
      - intros v Hn. now rewrite (proj2 (is_active_false _ _) Hn). }
    intros dY dy HY. split; [now eexists; eexists|].
    intros dx ga [-> ->]. split; [|apply no_grads]. cbn [q_back seq_reshape]. rewrite EX.
    apply (reshape_held world P' P e s' s (eq_sym Er) Es' Es Hs' (eq_sym Hz) _ dY dy); auto.
    - intros i v Hw. destruct (reshape_worker P P' e s s' Er Es Es' _ _ Hw) as (j & Ej & Hj). injection Ej as <-.
      rewrite (proj2 (is_active_spec _ _) (worker_at_In _ _ _ Hj)). now rewrite (Ex i v Hj).
    - rewrite Er. intros v Hn. now rewrite (proj2 (is_active_false _ _) Hn).
  Qed.
End ReshapeLayer.

(** * Repartition *)

Definition rst0 {R : CRing} : @rst R := mkrst no_tensor false false no_tensor false [].

Section Move.
  Context {R : CRing}.
  Variables (world : list Z) (Px Py : part) (L : layout) (pb : bool) (rg : Z -> bool).
  Hypothesis HG : repartition_given world Px Py L.

  Lemma block_nonneg M idx : layout_ok M -> nonneg_shape (block_shape M idx).
  Proof.
    intros H. unfold block_shape. revert idx. induction H as [|e M He H IH]; intros [|i idx]; cbn; try constructor; [|apply IH].
    destruct (nth_in_or_default (Z.to_nat i) e 0) as [Hn|Hn]; [|rewrite Hn; lia]. rewrite Forall_forall in He. now apply He.
  Qed.

  Lemma block_dims (P : part) (M : layout) idx v : part_ok P -> layout_workers M = p_shape P -> worker_at P idx v -> block_shape M idx <> [].
  Proof.
    intros (_ & N & _) E [Hv _]. rewrite <- E in *. destruct M as [|e M]; [cbn in N; congruence|]. inversion Hv; subst. discriminate.
  Qed.

  Lemma empty_like_ok (t u : tensor R) : empty_like pb t u -> nonneg_shape (tshape t) -> tshape t <> [] -> nonneg_shape (tshape u) /\ tshape u <> [].
  Proof.
    unfold empty_like. intros E Hn Hd. rewrite E. destruct pb.
    - apply empty_ok. destruct Hn; [congruence|]. assumption.
    - split; [|discriminate]. constructor; [lia|constructor].
  Qed.

  Lemma move_sound : sound (R := R) world (mkplace Px L) (YRepartition Px Py pb rg) seq_identity [] (mkplace Py (balanced (layout_shape L) (p_shape Py))).
  Proof.
    intros Th th X x _ [HX HO] ps. cbn [pl_part pl_layout] in *.
    pose proof HG as (H1 & H2 & H3 & H4 & H5 & H6 & H7 & H8 & H9).
    set (Ly := balanced (layout_shape L) (p_shape Py)).
    assert (NL : nonneg_shape (layout_shape L)).
    { unfold layout_shape. apply Forall_map. refine (Forall_impl _ _ H7). intros e He. pose proof (zsum_firstn_le e 0 He). lia. }
    assert (LyOk : layout_ok Ly) by (apply balanced_ok; [apply H4|exact NL]).
    assert (Elen : length (layout_shape L) = length (p_shape Py)).
    { unfold layout_shape. rewrite map_length, <- H6, <- H8. unfold layout_workers. now rewrite map_length. }
    assert (LyW : layout_workers Ly = p_shape Py) by (apply balanced_workers; [apply H4|exact Elen]).
    assert (LyS : layout_shape Ly = layout_shape L) by (apply balanced_shape; [apply H4|exact NL|exact Elen]).
    assert (Hshape : forall idx v, worker_at Px idx v -> tshape (x v) = block_shape L idx) by (intros idx v Hv; exact (proj1 (proj2 HX idx v Hv))).
    assert (Xall : forall v, In v world -> nonneg_shape (tshape (x v)) /\ tshape (x v) <> []).
    { intros v Hv. destruct (in_dec Z.eq_dec v (p_ranks Px)) as [Hp|Hp]; [|now apply HO].
      destruct (worker_at_exists Px v H3 Hp) as [idx Hi]. rewrite (Hshape idx v Hi). split; [now apply block_nonneg|].
      now apply (block_dims Px L idx v). }
    assert (Ffit : call_fits pb Px Py L (CForward x rg)).
    { split; [exact Hshape|]. intros _ v Hv. apply Xall. apply H2. exact Hv. }
    split.
    { destruct (async_ends world _ _ (fun _ => rst0) (fun _ _ _ _ => false)
        (given_async (R := R) world Px Py L pb (fun v => tshape (x v)) HG Hshape ([] ++ [CForward x rg]) (fun _ => rst0))) as [g Hg].
      exists x, (result_of g). exists [], (fun _ => rst0), (fun _ _ _ _ => false), g. split; [exact Hg|reflexivity]. }
    intros saved out (pre & init & eager & g & Hg & ->).
    destruct (given_forward world Px Py L pb _ HG Hshape pre x rg init eager g X Hg Ffit HX) as (F1 & F2 & F3). split.
    { split; cbn [pl_part pl_layout q_forward seq_identity].
      - split; [rewrite LyS; exact (proj1 HX)|]. intros idx v Hv. exact (proj1 (F1 idx v Hv)).
      - intros v Hv Hn. destruct (in_dec Z.eq_dec v (p_ranks Px)) as [Hp|Hp].
        + apply (empty_like_ok (x v)); [now apply F2; [left|]|apply Xall; auto..].
        + destruct (F3 v Hv) as [[E _] _]; [intros [?|?]; contradiction|]. rewrite E. now apply Xall. }
    intros dY dy [HY HOY]. cbn [pl_part pl_layout] in *.
    assert (Yall : forall v, In v world -> nonneg_shape (tshape (dy v)) /\ tshape (dy v) <> []).
    { intros v Hv. destruct (in_dec Z.eq_dec v (p_ranks Py)) as [Hp|Hp]; [|now apply HOY].
      destruct (worker_at_exists Py v H4 Hp) as [idx Hi]. rewrite (proj1 (proj2 HY idx v Hi)). split; [now apply block_nonneg|].
      now apply (block_dims Py Ly idx v). }
    assert (Bfit : call_fits (R := R) pb Px Py L (CBackward dy)).
    { split; [intros idx v Hi; exact (proj1 (proj2 HY idx v Hi))|]. intros _ v Hv. apply Yall. apply H2. exact Hv. }
    split.
    { destruct (async_ends world _ _ (fun _ => rst0) (fun _ _ _ _ => false)
        (given_async (R := R) world Px Py L pb (fun v => tshape (x v)) HG Hshape ([] ++ [CBackward dy]) (fun _ => rst0))) as [gb Hgb].
      exists (result_of gb), (fun _ => []). split; [|reflexivity]. exists [], (fun _ => rst0), (fun _ _ _ _ => false), gb. split; [exact Hgb|reflexivity]. }
    intros dx ga [(pre' & init' & eager' & gb & Hgb & ->) ->].
    destruct (given_backward world Px Py L pb _ HG Hshape pre' dy init' eager' gb dY Hgb Bfit HY) as (B1 & B2 & B3).
    split; [|apply no_grads]. split; cbn [pl_part pl_layout q_back seq_identity].
    - split; [rewrite <- LyS; exact (proj1 HY)|]. exact B1.
    - intros v Hv Hn. destruct (in_dec Z.eq_dec v (p_ranks Py)) as [Hp|Hp].
      + apply (empty_like_ok (dy v)); [now apply B2; [right|]|apply Yall; auto..].
      + destruct (B3 v Hv) as [E _]; [intros [?|?]; contradiction|]. rewrite E. now apply Yall.
  Qed.
End Move.
