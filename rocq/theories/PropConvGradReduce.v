(** Gradients of channel-distributed convolutions in machine arithmetic: C74. *)

From Coq Require Import Sorting.Permutation.
From Verif Require Import Prelude SpecIndex SpecLayout SpecPartition SpecHalo ModelSlicing ModelDecomposition ModelPartition ProofSlicing
  ProofDecomposition ProofPartition Ring Tensor ModelCollectives ProofCollectives PropCollectives Blocks ModelUtilities P2P Rounds
  ModelRepartition ProofRepartition PropRepartition ModelHaloMixin ProofHaloMixin PropHaloMixin ModelHaloExchange PropHaloExchange
  ModelFeatureLayer SpecFeature ProofFeatureLayer PropFeatureLayer PropFeatureConv ModelLinear ProofWork PropLinear ModelConv ProofConv
  ProofConvParts PropConv PropConvChannel PropConvGeneral ModelFeatureGrad SpecFeatureGrad ModelWorkGrad ProofWorkGrad PropChannelGrad
  ModelReduce SpecSum ProofReduce PropReduce SpecConvSum ModelConvReduce ProofConvReduce PropConvReduce SpecConvGradSum ModelConvGradReduce.

(** What a backward pass is to deliver: on the workers of P_x the blocks of one
    possible input gradient; on those with the weight the blocks of one possible weight
    gradient, and of one possible bias gradient where there is a bias; nothing for a
    bias that is not there; tensors without elements or the worker's own argument
    elsewhere. *)
Definition conv_gradients_by {R : CRing} (M : machine R) (Px Py Pw : part) (co ci : Z) (Lx : layout) (w : window) (groups cin cout : Z)
    (W : tensor R) (bias : option (tensor R)) (X dY : tensor R) (b : Z) (xs ys : list Z) (dy : Z -> tensor R)
    (dx dweight : Z -> result (tensor R)) (dbias : Z -> option (result (tensor R))) : Prop :=
  let nk := length (w_kernel w) in
  (exists dX, conv_input_gradient_by M w groups cin cout W dY b xs ys dX /\
     forall idx v, worker_at Px idx v -> exists t, dx v = Ok t /\ teq t (block Lx idx dX)) /\
  (exists dW, conv_weight_gradient_by M w groups cin cout X dY b ys dW /\
     forall j i v, worker_at Pw (j :: i :: repeat 0 nk) v ->
       exists t, dweight v = Ok t /\ teq t (block (balanced (tshape W) (co :: ci :: repeat 1 nk)) (j :: i :: repeat 0 nk) dW)) /\
  (bias <> None -> exists db, conv_bias_gradient_by M cout dY b ys db /\
     forall j v, worker_at Pw (j :: 0 :: repeat 0 nk) v -> exists t, dbias v = Some (Ok t) /\ teq t (block (balanced [cout] [co]) [j] db)) /\
  (forall v, bias = None \/ (forall j, ~ worker_at Pw (j :: 0 :: repeat 0 nk) v) -> dbias v = None) /\
  (forall v, In v (p_ranks Pw) \/ In v (p_ranks Py) -> ~ In v (p_ranks Px) -> exists t n, dx v = Ok t /\ tshape t = [n; 0]) /\
  (forall v, ~ In v (p_ranks Px) -> ~ In v (p_ranks Pw) -> ~ In v (p_ranks Py) -> dx v = Ok (dy v)).

(** Every gradient is a sum of exactly the products of the sequential layer's, each
    once; for the weight, those with padding may be missing. *)
Definition C74_channel_statement : Prop :=
  forall (R : CRing) (M : machine R) red torch back_x back_w back_b (Px Py Pw : part) (co ci : Z) (w : window) (groups cin cout : Z)
    (X W : tensor R) (bias : option (tensor R)) (b : Z) (xs ys : list Z) (dY : tensor R) (weight bias_of x dy : Z -> tensor R) dt dt' rg rg',
  adds M red -> torch_conv_by M w groups torch -> torch_conv_back_by M w groups back_x back_w back_b ->
  distributed_conv Px Py Pw co ci (repeat 1 (length (w_kernel w))) w groups cin cout X W bias b xs ys weight bias_of ->
  holds_blocks Px (balanced (tshape X) (p_shape Px)) X x -> others_pass Px Py Pw x ->
  tshape dY = b :: cout :: ys -> holds_blocks Py (balanced (tshape dY) (p_shape Py)) dY dy -> others_pass Py Px Pw dy ->
  conv_gradients_by M Px Py Pw co ci (balanced (tshape X) (p_shape Px)) w groups cin cout W bias X dY b xs ys dy
    (channel_backward_by red torch back_x Px Py Pw (has_bias bias) dt dt' rg rg' weight bias_of x dy)
    (channel_weight_by torch back_w Px Py Pw (has_bias bias) dt dt' rg rg' weight bias_of x dy)
    (channel_bias_by torch back_b Px Py Pw (has_bias bias) dt dt' rg rg' weight bias_of x dy).

(** Computing in the ring, these are the gradients of the sequential layer (C53). *)
Definition C74_exact_statement : Prop :=
  forall (R : CRing) (w : window) (groups cin cout : Z) (X W : tensor R) (bias : option (tensor R)) (b : Z) (xs ys : list Z) (dY dX dW db : tensor R),
  conv_arguments w groups cin cout X W bias b xs ys -> tshape dY = b :: cout :: ys ->
  (conv_input_gradient_by (exact_machine R) w groups cin cout W dY b xs ys dX <->
     teq dX (input_gradient (conv_coefficients cout groups W) w (tshape X) dY)) /\
  (conv_weight_gradient_by (exact_machine R) w groups cin cout X dY b ys dW <-> teq dW (weight_gradient w cout groups X dY)) /\
  (conv_bias_gradient_by (exact_machine R) cout dY b ys db <-> teq db (bias_gradient cout dY)).

(** ** Proofs *)

Lemma flat_map_ext_in {A B} (f g : A -> list B) l : (forall a, In a l -> f a = g a) -> flat_map f l = flat_map g l.
Proof. induction l as [|a l IH]; intros H; [reflexivity|]. cbn [flat_map]. rewrite H, IH; auto; [intros; apply H; now right|now left]. Qed.

Section Given.
  Context {R : CRing}.
  Variables (Px Py Pw : part) (co ci : Z) (w : window) (groups cin cout : Z).
  Variables (X W : tensor R) (bias : option (tensor R)) (b : Z) (xs ys : list Z) (weight bias_of : Z -> tensor R) (dY : tensor R).
  Let nk := length (w_kernel w).
  Let S := repeat 1 nk.
  Hypothesis HD : distributed_conv Px Py Pw co ci S w groups cin cout X W bias b xs ys weight bias_of.
  Hypothesis ED : tshape dY = b :: cout :: ys.
  Variable M : machine R.

  Definition x_cut (i : Z) : tensor R := block (balanced (tshape X) (1 :: ci :: S)) (0 :: i :: repeat 0 nk) X.
  Definition y_cut (j : Z) : tensor R := block (balanced (tshape dY) (1 :: co :: S)) (0 :: j :: repeat 0 nk) dY.

  Lemma g_facts : 0 < co <= cout /\ 0 < ci <= cin /\ 0 < groups /\ (groups | cout) /\ (groups | cin) /\
    (groups = 1 \/ co = 1 /\ ci = 1) /\ tshape W = cout :: cin / groups :: w_kernel w /\ 0 < cin / groups.
  Proof.
    destruct (given_layer _ _ _ _ _ _ _ _ _ _ _ _ _ _ _ _ _ _ HD) as (Y0 & HL & EY0).
    pose proof HD as (_ & _ & _ & _ & _ & _ & HE & _). eapply l_facts; eauto.
  Qed.
  Lemma g_args : conv_arguments w groups cin cout X W bias b xs ys.
  Proof. apply HD. Qed.
  Lemma g_ys : length ys = nk.
  Proof. destruct g_args as (_ & _ & _ & _ & _ & _ & _ & A8 & _ & [Ly _] & _). unfold nk. congruence. Qed.

  Lemma cut_x_shape i : 0 <= i < ci -> tshape (x_cut i) = b :: subshape1 ci i cin :: xs.
  Proof.
    intros Hi. destruct g_args as (_ & _ & _ & _ & _ & _ & A7 & A8 & _). unfold x_cut, S, nk. cbn [block tshape].
    rewrite A7, !bal_shape_cons by lia. rewrite unit_sub, <- A8. now rewrite ones_shape.
  Qed.
  Lemma cut_y_shape j : 0 <= j < co -> tshape (y_cut j) = b :: subshape1 co j cout :: ys.
  Proof.
    intros Hj. unfold y_cut, S. cbn [block tshape]. rewrite ED, !bal_shape_cons by lia. rewrite unit_sub, <- g_ys. now rewrite ones_shape.
  Qed.
  Lemma cut_y_value j b' c o : 0 <= j < co -> length o = nk -> tat (y_cut j) (b' :: c :: o) = tat dY (b' :: start1 co j cout + c :: o).
  Proof.
    intros Hj Lo. unfold y_cut, S. cbn [block tat]. rewrite ED, !bal_lo_cons by lia.
    rewrite start1_0 by lia. rewrite <- g_ys, ones_lo. pose proof (zeros_vadd (length ys) o ltac:(rewrite g_ys; exact Lo)) as Ez. unfold vadd in *.
    cbn [map2]. now rewrite Ez, Z.add_0_l.
  Qed.
  Lemma cut_x_inside i b' ch p : 0 <= i < ci -> length p = length xs -> 0 <= ch < subshape1 ci i cin ->
    inside (b :: subshape1 ci i cin :: xs) (b' :: ch :: p) = inside (b :: cin :: xs) (b' :: start1 ci i cin + ch :: p).
  Proof.
    intros Hi Lp Hch. destruct g_facts as (_ & F2 & _). apply Bool.eq_iff_eq_true. rewrite !inside_spec, !valid_index_cons.
    pose proof (start1_sub_le ci i cin ltac:(lia) ltac:(lia) Hi). intuition lia.
  Qed.

  (** The terms of worker (j, i) for the gradient of the input. *)
  Definition input_share (j i b' ch : Z) (q : list Z) : list (term R) :=
    flat_map (fun c' =>
      let c := start1 co j cout + c' in
      let first := c / (cout / groups) * (cin / groups) in
      let chg := start1 ci i cin + ch in
      if (first <=? chg) && (chg <? first + cin / groups)
      then flat_map (fun o => flat_map (fun t =>
             if list_eq_dec Z.eq_dec (window_at w o t) q then [Prod (tat W (c :: chg - first :: t)) (tat dY (b' :: c :: o))] else [])
             (indices (w_kernel w))) (indices ys)
      else []) (zrange (subshape1 co j cout)).

  Lemma input_shares i b' ch q :
    flat_map (fun j => input_share j i b' ch q) (zrange co) = input_terms w groups cin cout W dY ys b' (start1 ci i cin + ch) q.
  Proof.
    destruct g_facts as (F1 & _). unfold input_share, input_terms.
    exact (balanced_flat_map co cout (fun c =>
      let first := c / (cout / groups) * (cin / groups) in
      if (first <=? start1 ci i cin + ch) && (start1 ci i cin + ch <? first + cin / groups)
      then flat_map (fun o => flat_map (fun t =>
             if list_eq_dec Z.eq_dec (window_at w o t) q then [Prod (tat W (c :: start1 ci i cin + ch - first :: t)) (tat dY (b' :: c :: o))] else [])
             (indices (w_kernel w))) (indices ys)
      else []) ltac:(lia) ltac:(lia)).
  Qed.

  Variables (j i : Z).
  Hypothesis Hj : 0 <= j < co.
  Hypothesis Hi : 0 <= i < ci.
  Variables (wt t g : tensor R).
  Hypothesis Hwt : teq wt (weight_block co ci w W j i).
  Hypothesis Ht : teq t (x_cut i).
  Hypothesis Hg : teq g (y_cut j).

  Lemma cut_wt : tshape wt = subshape1 co j cout :: subshape1 ci i (cin / groups) :: w_kernel w.
  Proof. destruct g_facts as (_ & _ & _ & _ & _ & _ & F7 & _). destruct Hwt as [-> _]. now apply weight_block_shape. Qed.

  Lemma cut_args : conv_arguments w groups (subshape1 ci i cin) (subshape1 co j cout) t wt None b xs ys.
  Proof.
    destruct g_facts as (F1 & F2 & F3 & F4 & F5 & F6 & F7 & F8). destruct g_args as (A1 & A2 & A3 & A4 & A5 & A6 & A7 & A8 & A9 & A10 & A11 & A12 & A13).
    destruct (local_cout co ci w groups cin cout W F1 F3 F4 F5 F6 F7 j Hj) as [B1 B2].
    pose proof (local_cin co ci w groups cin cout W F2 F3 F4 F5 F6 F7 i Hi) as B3.
    pose proof (local_groups co ci w groups cin cout W F2 F3 F4 F5 F6 F7 i Hi) as B4.
    split; [exact F3|]. split; [exists (subshape1 ci i (cin / groups)); lia|]. split; [exact B2|]. split; [apply subshape1_pos; lia|].
    split; [exact B1|]. split; [exact A6|]. split; [destruct Ht as [-> _]; now apply cut_x_shape|]. split; [exact A8|]. split; [exact A9|].
    split; [exact A10|]. split; [exact A11|]. split; [rewrite B4; exact cut_wt|exact I].
  Qed.
  Lemma cut_g : tshape g = b :: subshape1 co j cout :: ys.
  Proof. destruct Hg as [-> _]. now apply cut_y_shape. Qed.

  Lemma cut_g_value b' c o : 0 <= b' < b -> 0 <= c < subshape1 co j cout -> valid_index ys o -> tat g (b' :: c :: o) = tat dY (b' :: start1 co j cout + c :: o).
  Proof.
    intros Hb Hc Ho. destruct Hg as [_ V]. rewrite V.
    - apply cut_y_value; [exact Hj|]. apply valid_index_length in Ho. rewrite <- g_ys. exact Ho.
    - rewrite cut_g. repeat (apply valid_index_cons; split; [lia|]). exact Ho.
  Qed.

  (** The channels of a group. *)
  Lemma cut_group c ch : 0 <= c < subshape1 co j cout -> 0 <= ch < subshape1 ci i cin ->
    let first := c / (subshape1 co j cout / groups) * subshape1 ci i (cin / groups) in
    let first' := (start1 co j cout + c) / (cout / groups) * (cin / groups) in
    (first <=? ch) && (ch <? first + subshape1 ci i (cin / groups)) = (first' <=? start1 ci i cin + ch) && (start1 ci i cin + ch <? first' + cin / groups) /\
    ((first <=? ch) && (ch <? first + subshape1 ci i (cin / groups)) = true ->
      start1 ci i (cin / groups) + (ch - first) = start1 ci i cin + ch - first').
  Proof.
    intros Hc Hch. destruct g_facts as (F1 & F2 & F3 & F4 & F5 & F6 & F7 & F8). cbv zeta. destruct F6 as [E|[E1 E2]].
    - rewrite E in *. rewrite !Z.div_1_r in *. pose proof (start1_sub_le co j cout ltac:(lia) ltac:(lia) Hj).
      pose proof (start1_sub_le ci i cin ltac:(lia) ltac:(lia) Hi). rewrite (Z.div_small c) by lia. rewrite (Z.div_small (_ + c)) by lia.
      rewrite !Z.mul_0_l, !Z.add_0_l. rewrite !(proj2 (Z.leb_le _ _)) by lia. rewrite !(proj2 (Z.ltb_lt _ _)) by lia. split; [reflexivity|lia].
    - assert (j = 0) by lia. assert (i = 0) by lia. subst j i. rewrite E1, E2, !unit_sub, !start1_0, !Z.add_0_l by lia. split; [reflexivity|lia].
  Qed.

  Variables (back_x back_w back_b : Z -> bool -> tensor R -> tensor R -> tensor R -> result (tensor R)).
  Hypothesis HT : torch_conv_back_by M w groups back_x back_w back_b.
  Variable v : Z.

  Lemma cut_input : exists z, back_x v true wt t g = Ok z /\ tshape z = tshape (x_cut i) /\
    forall b' ch q, valid_index (tshape (x_cut i)) (b' :: ch :: q) -> evaluates M (input_share j i b' ch q) (tat z (b' :: ch :: q)).
  Proof.
    destruct (HT v true _ _ _ _ _ _ _ _ cut_args cut_g) as ((z & E & Sz & Vz) & _). exists z. split; [exact E|]. rewrite cut_x_shape by exact Hi.
    split; [exact Sz|]. intros b' ch q Hq. rewrite <- Sz in Hq. specialize (Vz b' ch q Hq). rewrite Sz in Hq.
    apply valid_index_cons in Hq as [Hb' Hq]. apply valid_index_cons in Hq as [Hch Hq].
    destruct g_facts as (F1 & F2 & F3 & F4 & F5 & F6 & F7 & F8).
    enough (Eq : input_terms w groups (subshape1 ci i cin) (subshape1 co j cout) wt g ys b' ch q = input_share j i b' ch q) by (rewrite <- Eq; exact Vz).
    unfold input_terms, input_share. apply flat_map_ext_in. intros c Hc. apply in_zrange in Hc.
    destruct (cut_group c ch Hc Hch) as [G1 G2]. rewrite (local_groups co ci w groups cin cout W F2 F3 F4 F5 F6 F7 i Hi).
    cbv zeta in G1, G2 |- *. rewrite <- G1. destruct (_ && _) eqn:Ec; [|reflexivity]. specialize (G2 eq_refl).
    apply andb_true_iff in Ec as [L1 L2]. apply Z.leb_le in L1. apply Z.ltb_lt in L2.
    apply flat_map_ext_in. intros o Ho. apply in_indices in Ho. apply flat_map_ext_in. intros k Hk. apply in_indices in Hk.
    destruct (list_eq_dec _ _ _); [|reflexivity]. do 2 f_equal; [|now apply cut_g_value].
    destruct Hwt as [_ V]. rewrite V.
    - rewrite (weight_block_at co ci w groups cin cout W F1 F2 F3 F7) by (auto; now apply valid_index_length in Hk). now rewrite G2.
    - rewrite cut_wt. apply valid_index_cons. split; [lia|]. apply valid_index_cons. split; [lia|exact Hk].
  Qed.

  Lemma cut_weight : exists z, back_w v true wt t g = Ok z /\ tshape z = subshape1 co j cout :: subshape1 ci i (cin / groups) :: w_kernel w /\
    forall c k q, valid_index (tshape z) (c :: k :: q) ->
      may_evaluate M (weight_terms w groups cin cout X dY b ys (start1 co j cout + c) (start1 ci i (cin / groups) + k) q) (tat z (c :: k :: q)).
  Proof.
    destruct (HT v true _ _ _ _ _ _ _ _ cut_args cut_g) as (_ & (z & E & Sz & Vz) & _). exists z. split; [exact E|].
    destruct g_facts as (F1 & F2 & F3 & F4 & F5 & F6 & F7 & F8). destruct g_args as (_ & _ & _ & _ & _ & _ & A7 & A8 & _).
    pose proof (local_groups co ci w groups cin cout W F2 F3 F4 F5 F6 F7 i Hi) as Eg. rewrite Eg in Sz. split; [exact Sz|].
    intros c k q Hq. specialize (Vz c k q Hq). rewrite Sz in Hq. apply valid_index_cons in Hq as [Hc Hq]. apply valid_index_cons in Hq as [Hk Hq].
    eapply may_marks; [|exact Vz]. unfold weight_terms. rewrite Eg. apply Forall2_flat_map. intros b' Hb'. apply in_zrange in Hb'.
    apply Forall2_map_in. intros o Ho. apply in_indices in Ho. cbv zeta. cbn [fst snd].
    destruct (channel_index co ci groups cout cin j i c k F1 F2 F3 F4 F5 F6 Hj Hi Hc Hk) as [Ec Er]. rewrite <- Ec.
    assert (Lp : length (window_at w o q) = length xs) by (unfold window_at; rewrite vec_length; congruence).
    rewrite cut_g_value by auto.
    assert (Et : tshape t = b :: subshape1 ci i cin :: xs) by (destruct Ht as [-> _]; now apply cut_x_shape).
    rewrite Et, A7. rewrite cut_x_inside by auto. split; [|auto]. f_equal.
    pose proof (channel_value ci i b cin xs X b' _ _ ltac:(lia) ltac:(lia) Hi A7 Lp Er) as V. rewrite A8 in V. fold nk in V. fold S in V. fold (x_cut i) in V.
    rewrite <- V. unfold value_at. rewrite cut_x_shape, Et by exact Hi. destruct (inside _ _) eqn:Ei; [|reflexivity].
    destruct Ht as [_ Vt]. apply Vt. rewrite Et. now apply inside_spec.
  Qed.

  Lemma cut_bias : exists z, back_b v true wt t g = Ok z /\ tshape z = [subshape1 co j cout] /\
    forall c, 0 <= c < subshape1 co j cout -> evaluates M (bias_terms dY b ys (start1 co j cout + c)) (tat z [c]).
  Proof.
    destruct (HT v true _ _ _ _ _ _ _ _ cut_args cut_g) as (_ & _ & (z & E & Sz & Vz)). exists z. split; [exact E|]. split; [exact Sz|].
    intros c Hc. specialize (Vz c Hc). enough (Eq : bias_terms g b ys c = bias_terms dY b ys (start1 co j cout + c)) by (rewrite <- Eq; exact Vz).
    unfold bias_terms. apply flat_map_ext_in. intros b' Hb'. apply in_zrange in Hb'. apply map_ext_in. intros o Ho. apply in_indices in Ho. f_equal.
    now apply cut_g_value.
  Qed.
End Given.

(** From the workers' results to the gradients. *)
Section Assembled.
  Context {R : CRing}.
  Variables (Px Py Pw : part) (co ci : Z) (w : window) (groups cin cout : Z).
  Variables (X W : tensor R) (bias : option (tensor R)) (b : Z) (xs ys : list Z) (weight bias_of : Z -> tensor R) (dY : tensor R).
  Let nk := length (w_kernel w).
  Let S := repeat 1 nk.
  Hypothesis HD : distributed_conv Px Py Pw co ci S w groups cin cout X W bias b xs ys weight bias_of.
  Variable M : machine R.

  Lemma zeros_index n : valid_index (repeat 1 n) (repeat 0 n).
  Proof. induction n as [|n IH]; [constructor|]. cbn [repeat]. apply valid_index_cons. split; [lia|exact IH]. Qed.
  Lemma repeat_ones_pos n : pos_shape (repeat 1 n).
  Proof. apply Forall_forall. intros z Hz. apply repeat_spec in Hz. lia. Qed.

  Lemma assembled_input (dx : Z -> result (tensor R)) :
    (forall i v, worker_at Px (0 :: i :: repeat 0 nk) v -> 0 <= i < ci -> exists z, dx v = Ok z /\ tshape z = tshape (x_cut ci w X i) /\
       forall b' ch q, valid_index (tshape (x_cut ci w X i)) (b' :: ch :: q) ->
         evaluates M (flat_map (fun j => input_share co ci w groups cin cout W ys dY j i b' ch q) (zrange co)) (tat z (b' :: ch :: q))) ->
    exists dX, conv_input_gradient_by M w groups cin cout W dY b xs ys dX /\
      forall idx v, worker_at Px idx v -> exists t, dx v = Ok t /\ teq t (block (balanced (tshape X) (p_shape Px)) idx dX).
  Proof.
    intros H. destruct (g_facts _ _ _ _ _ _ _ _ _ _ _ _ _ _ _ _ _ HD) as (F1 & F2 & F3 & F4 & F5 & F6 & F7 & F8).
    pose proof HD as (HP & _ & _ & _ & _ & (A1 & A2 & A3 & A4 & A5 & A6 & A7 & A8 & A9 & _) & _).
    pose proof (c_px _ _ _ _ _ _ HP) as Wx. pose proof (c_sx _ _ _ _ _ _ HP) as Sx.
    assert (Np : nonneg_shape (tshape X)) by (rewrite A7; constructor; [lia|]; constructor; [lia|exact A9]).
    assert (Pp : pos_shape (p_shape Px)) by apply Wx.
    assert (Lp : length (tshape X) = length (p_shape Px)) by (rewrite A7, Sx; cbn [length]; unfold S; rewrite repeat_length; unfold nk; congruence).
    assert (Ix : forall idx, valid_index (p_shape Px) idx -> exists i, idx = 0 :: i :: repeat 0 nk /\ 0 <= i < ci).
    { intros idx V. destruct (px_idx _ _ _ _ _ _ HP idx V) as (i & s & -> & Hi & Hs). apply ones_idx in Hs. subst s. eauto. }
    destruct (assemble (balanced (tshape X) (p_shape Px)) (fun idx => val (dx (wk Px idx)))
      (fun g r => evaluates M (input_terms w groups cin cout W dY ys (nth 0 g 0) (nth 1 g 0) (skipn 2 g)) r)) as (dX & SX & BX & VX).
    { now apply balanced_ok. }
    { rewrite balanced_workers by auto. intros idx V. destruct (Ix idx V) as (i & -> & Hi). pose proof (wk_worker Px _ Wx V) as Hv.
      destruct (H i _ Hv Hi) as (z & -> & Sz & Vz). cbn [val]. rewrite Sx. split; [exact Sz|].
      intros p Hp. change (valid_index (tshape (x_cut ci w X i)) p) in Hp. pose proof Hp as Hp'.
      rewrite (cut_x_shape _ _ _ _ _ _ _ _ _ _ _ _ _ _ _ _ _ HD i Hi) in Hp'.
      apply valid_index_cons_inv in Hp' as (b' & q1 & -> & Hb' & Hp'). apply valid_index_cons_inv in Hp' as (ch & q & -> & Hch & Hq).
      apply valid_index_length in Hq. rewrite A7, !bal_lo_cons by lia. rewrite start1_0 by lia. unfold S, nk. rewrite <- A8, ones_lo.
      pose proof (zeros_vadd (length xs) q Hq) as Ez. unfold vadd in *. cbn [map2 nth skipn]. rewrite Ez, Z.add_0_l.
      rewrite <- (input_shares _ _ _ _ _ _ _ _ _ _ _ _ _ _ _ _ _ dY HD). now apply Vz. }
    rewrite balanced_workers in BX by auto. rewrite balanced_shape in SX, VX by auto.
    exists dX. split; [split; [now rewrite SX|]|].
    - intros b' ch q Hq. rewrite SX in Hq. exact (VX _ Hq).
    - intros idx v Hv. destruct (Ix idx (proj1 Hv)) as (i & E & Hi). pose proof (BX idx (proj1 Hv)) as B.
      replace (wk Px idx) with v in B by (symmetry; now apply worker_wk). subst idx.
      destruct (H i v Hv Hi) as (z & Ez & _). rewrite Ez in B. exists z. split; [exact Ez|exact B].
  Qed.

  Lemma assembled_weight (dw : Z -> result (tensor R)) :
    (forall j i v, worker_at Pw (j :: i :: repeat 0 nk) v -> 0 <= j < co -> 0 <= i < ci ->
      exists z, dw v = Ok z /\ tshape z = subshape1 co j cout :: subshape1 ci i (cin / groups) :: w_kernel w /\
       forall c k q, valid_index (tshape z) (c :: k :: q) ->
         may_evaluate M (weight_terms w groups cin cout X dY b ys (start1 co j cout + c) (start1 ci i (cin / groups) + k) q) (tat z (c :: k :: q))) ->
    exists dW, conv_weight_gradient_by M w groups cin cout X dY b ys dW /\
      forall j i v, worker_at Pw (j :: i :: repeat 0 nk) v ->
        exists t, dw v = Ok t /\ teq t (block (balanced (tshape W) (co :: ci :: repeat 1 nk)) (j :: i :: repeat 0 nk) dW).
  Proof.
    intros H. destruct (g_facts _ _ _ _ _ _ _ _ _ _ _ _ _ _ _ _ _ HD) as (F1 & F2 & F3 & F4 & F5 & F6 & F7 & F8).
    pose proof HD as (HP & _ & Hw & _). pose proof (c_pw _ _ _ _ _ _ HP) as Ww. pose proof (c_sw _ _ _ _ _ _ HP) as Sw.
    assert (Hk : Forall (fun n => 0 < n) (w_kernel w)) by (destruct Hw as (_ & _ & _ & _ & Hk & _); exact Hk).
    assert (Np : nonneg_shape (tshape W)).
    { rewrite F7. constructor; [lia|]. constructor; [lia|]. eapply Forall_impl; [|exact Hk]. cbn. lia. }
    assert (Pp : pos_shape (co :: ci :: repeat 1 nk)) by (constructor; [lia|]; constructor; [lia|apply repeat_ones_pos]).
    assert (Lp : length (tshape W) = length (co :: ci :: repeat 1 nk)) by (rewrite F7; cbn [length]; now rewrite repeat_length).
    assert (Wk : forall j i, 0 <= j < co -> 0 <= i < ci -> worker_at Pw (j :: i :: repeat 0 nk) (wk Pw (j :: i :: repeat 0 nk))).
    { intros j i Hj Hi. apply wk_worker; auto. rewrite Sw. repeat (apply valid_index_cons; split; [lia|]). apply zeros_index. }
    destruct (assemble (balanced (tshape W) (co :: ci :: repeat 1 nk)) (fun idx => val (dw (wk Pw idx)))
      (fun g r => may_evaluate M (weight_terms w groups cin cout X dY b ys (nth 0 g 0) (nth 1 g 0) (skipn 2 g)) r)) as (dW & SW & BW & VW).
    { now apply balanced_ok. }
    { rewrite balanced_workers by auto. intros idx V. apply valid_index_cons_inv in V as (j & s & -> & Hj & V).
      apply valid_index_cons_inv in V as (i & s' & -> & Hi & V). apply ones_idx in V. subst s'.
      destruct (H j i _ (Wk j i Hj Hi) Hj Hi) as (z & -> & Sz & Vz). cbn [val].
      assert (Eb : block_shape (balanced (tshape W) (co :: ci :: repeat 1 nk)) (j :: i :: repeat 0 nk) = tshape z).
      { rewrite Sz, F7, !bal_shape_cons by lia. unfold nk. now rewrite ones_shape. }
      rewrite Eb. split; [reflexivity|]. intros p Hp. pose proof Hp as Hp'. rewrite Sz in Hp'.
      apply valid_index_cons_inv in Hp' as (c & q1 & -> & Hc & Hp'). apply valid_index_cons_inv in Hp' as (k & q & -> & Hk' & Hq).
      apply valid_index_length in Hq. rewrite F7, !bal_lo_cons by lia. unfold nk. rewrite ones_lo.
      pose proof (zeros_vadd (length (w_kernel w)) q Hq) as Ez. unfold vadd in *. cbn [map2 nth skipn]. rewrite Ez. now apply Vz. }
    rewrite balanced_workers in BW by auto. rewrite balanced_shape in SW, VW by auto.
    exists dW. split; [split; [now rewrite SW|]|].
    - intros c k q Hq. rewrite SW in Hq. exact (VW _ Hq).
    - intros j i v Hv. destruct (pw_idx _ _ _ _ _ _ HP _ (proj1 Hv)) as (j' & i' & s & E & Hj & Hi & _). inversion E; subst j' i' s. clear E.
      assert (V : valid_index (co :: ci :: repeat 1 nk) (j :: i :: repeat 0 nk)) by (repeat (apply valid_index_cons; split; [lia|]); apply zeros_index).
      pose proof (BW _ V) as B. replace (wk Pw (j :: i :: repeat 0 nk)) with v in B by (symmetry; now apply worker_wk).
      destruct (H j i v Hv Hj Hi) as (z & Ez & _). rewrite Ez in B. exists z. split; [exact Ez|exact B].
  Qed.

  Lemma assembled_bias (db : Z -> option (result (tensor R))) :
    (forall j v, worker_at Pw (j :: 0 :: repeat 0 nk) v -> 0 <= j < co ->
      exists z, db v = Some (Ok z) /\ tshape z = [subshape1 co j cout] /\
       forall c, 0 <= c < subshape1 co j cout -> evaluates M (bias_terms dY b ys (start1 co j cout + c)) (tat z [c])) ->
    exists d, conv_bias_gradient_by M cout dY b ys d /\
      forall j v, worker_at Pw (j :: 0 :: repeat 0 nk) v -> exists t, db v = Some (Ok t) /\ teq t (block (balanced [cout] [co]) [j] d).
  Proof.
    intros H. destruct (g_facts _ _ _ _ _ _ _ _ _ _ _ _ _ _ _ _ _ HD) as (F1 & F2 & _).
    pose proof HD as (HP & _). pose proof (c_pw _ _ _ _ _ _ HP) as Ww. pose proof (c_sw _ _ _ _ _ _ HP) as Sw.
    assert (Np : nonneg_shape [cout]) by (constructor; [lia|constructor]). assert (Pp : pos_shape [co]) by (constructor; [lia|constructor]).
    assert (Wk : forall j, 0 <= j < co -> worker_at Pw (j :: 0 :: repeat 0 nk) (wk Pw (j :: 0 :: repeat 0 nk))).
    { intros j Hj. apply wk_worker; auto. rewrite Sw. repeat (apply valid_index_cons; split; [lia|]). apply zeros_index. }
    set (z0 := mkt (R := R) [] (fun _ => rzero)).
    destruct (assemble (balanced [cout] [co])
      (fun idx => match db (wk Pw (nth 0 idx 0 :: 0 :: repeat 0 nk)) with Some r => val r | None => z0 end)
      (fun g r => evaluates M (bias_terms dY b ys (nth 0 g 0)) r)) as (d & Sd & Bd & Vd).
    { now apply balanced_ok. }
    { rewrite balanced_workers by auto. intros idx V. apply valid_index_cons_inv in V as (j & s & -> & Hj & V). apply valid_index_nil in V. subst s.
      cbn [nth]. destruct (H j _ (Wk j Hj) Hj) as (z & -> & Sz & Vz). cbn [val].
      assert (Eb : block_shape (balanced [cout] [co]) [j] = tshape z).
      { rewrite Sz. unfold block_shape, balanced. cbn [map2]. now rewrite balanced1_nth. }
      rewrite Eb. split; [reflexivity|]. intros p Hp. rewrite Sz in Hp. apply valid_index_cons_inv in Hp as (c & q & -> & Hc & Hp). apply valid_index_nil in Hp. subst q.
      unfold block_lo, balanced, vadd. cbn [map2 nth]. rewrite balanced1_prefix by lia. now apply Vz. }
    rewrite balanced_workers in Bd by auto. rewrite balanced_shape in Sd, Vd by auto.
    exists d. split; [split; [exact Sd|]|].
    - intros c Hc. apply (Vd [c]). apply valid_index_cons. split; [exact Hc|constructor].
    - intros j v Hv. destruct (pw_idx _ _ _ _ _ _ HP _ (proj1 Hv)) as (j' & i' & s & E & Hj & Hi & _). inversion E; subst j' i' s. clear E.
      pose proof (Bd [j] ltac:(apply valid_index_cons; split; [exact Hj|constructor])) as B. cbn [nth] in B.
      replace (wk Pw (j :: 0 :: repeat 0 nk)) with v in B by (symmetry; now apply worker_wk).
      destruct (H j v Hv Hj) as (z & Ez & _). rewrite Ez in B. exists z. split; [exact Ez|exact B].
  Qed.
End Assembled.

Lemma C74_channel_proof : C74_channel_statement.
Proof.
  intros R M red torch back_x back_w back_b Px Py Pw co ci w groups cin cout X W bias b xs ys dY weight bias_of x dy dt dt' rg rg'
    HM HT HTB HD HX HO ED HDY HOd.
  set (nk := length (w_kernel w)) in *. set (S := repeat 1 nk) in *.
  destruct (given_layer _ _ _ _ _ _ _ _ _ _ _ _ _ _ _ _ _ _ HD) as (Y0 & HL & EY0).
  pose proof HD as (HP & HS & Hw & Hco & Hci & (A1 & A2 & A3 & A4 & A5 & A6 & A7 & A8 & A9 & A10 & A11 & A12 & A13) & HE & HH).
  destruct (g_facts _ _ _ _ _ _ _ _ _ _ _ _ _ _ _ _ _ HD) as (F1 & F2 & F3 & F4 & F5 & F6 & F7 & F8).
  assert (HSk : ChannelConv = ChannelConv -> S = repeat 1 (length S)) by (intros _; unfold S; now rewrite repeat_length).
  pose proof (c_pw _ _ _ _ _ _ HP) as Ww. pose proof (c_px _ _ _ _ _ _ HP) as Wx. pose proof (c_py _ _ _ _ _ _ HP) as Wy.
  pose proof (c_sx _ _ _ _ _ _ HP) as Sx. pose proof (c_sy _ _ _ _ _ _ HP) as Sy. pose proof (c_sw _ _ _ _ _ _ HP) as Sw.
  assert (Ones : forall s, valid_index S s -> s = repeat 0 nk) by (intros s Hs; now apply ones_idx).
  assert (Ix : forall idx v, worker_at Px idx v -> exists i, idx = 0 :: i :: repeat 0 nk /\ 0 <= i < ci).
  { intros idx v Hv. destruct (px_idx _ _ _ _ _ _ HP idx (proj1 Hv)) as (i & s & -> & Hi & Hs). apply Ones in Hs. subst s. eauto. }
  assert (Iy : forall idx v, worker_at Py idx v -> exists j, idx = 0 :: j :: repeat 0 nk /\ 0 <= j < co).
  { intros idx v Hv. destruct (py_idx _ _ _ _ _ _ HP idx (proj1 Hv)) as (i & s & -> & Hi & Hs). apply Ones in Hs. subst s. eauto. }
  assert (Iw : forall idx v, worker_at Pw idx v -> exists j i, idx = j :: i :: repeat 0 nk /\ 0 <= j < co /\ 0 <= i < ci).
  { intros idx v Hv. destruct (pw_idx _ _ _ _ _ _ HP idx (proj1 Hv)) as (j & i & s & -> & Hj & Hi & Hs). apply Ones in Hs. subst s. eauto. }
  assert (Bx : forall i v, worker_at Px (0 :: i :: repeat 0 nk) v -> teq (x v) (x_cut ci w X i)).
  { intros i v Hv. destruct HX as [_ HX]. pose proof (HX _ _ Hv) as Q. rewrite Sx in Q. exact Q. }
  assert (By : forall j v, worker_at Py (0 :: j :: repeat 0 nk) v -> teq (dy v) (y_cut co w dY j)).
  { intros j v Hv. destruct HDY as [_ HDY]. pose proof (HDY _ _ Hv) as Q. rewrite Sy in Q. exact Q. }
  assert (Bw : forall j i v, worker_at Pw (j :: i :: repeat 0 nk) v -> teq (weight v) (weight_block co ci w W j i)) by apply HH.
  assert (Rx : forall v, recast_x ChannelConv Px Pw v = Ok Px) by (intros v; exact (c_recast_x Px Py Pw co ci S HP ChannelConv v HSk)).
  assert (Ry : forall v, recast_y ChannelConv Py Pw v = Ok (y_part Py co S)) by (intros v; exact (c_recast_y Px Py Pw co ci S HP ChannelConv v HSk)).
  assert (LinX : forall u j i wt t g, 0 <= j < co -> 0 <= i < ci -> teq wt (weight_block co ci w W j i) -> teq t (x_cut ci w X i) -> teq g (y_cut co w dY j) ->
    exists z, back_x u true wt t g = Ok z /\ tshape z = tshape (x_cut ci w X i) /\
    forall b' ch q, valid_index (tshape (x_cut ci w X i)) (b' :: ch :: q) ->
      evaluates M (input_share co ci w groups cin cout W ys dY j i b' ch q) (tat z (b' :: ch :: q))).
  { intros u j i wt t g Hj Hi Q1 Q2 Q3. eapply cut_input; eauto. }
  assert (LinW : forall u j i wt t g, 0 <= j < co -> 0 <= i < ci -> teq wt (weight_block co ci w W j i) -> teq t (x_cut ci w X i) -> teq g (y_cut co w dY j) ->
    exists z, back_w u true wt t g = Ok z /\ tshape z = subshape1 co j cout :: subshape1 ci i (cin / groups) :: w_kernel w /\
    forall c k q, valid_index (tshape z) (c :: k :: q) ->
      may_evaluate M (weight_terms w groups cin cout X dY b ys (start1 co j cout + c) (start1 ci i (cin / groups) + k) q) (tat z (c :: k :: q))).
  { intros u j i wt t g Hj Hi Q1 Q2 Q3. eapply cut_weight; eauto. }
  assert (LinB : forall u j i wt t g, 0 <= j < co -> 0 <= i < ci -> teq wt (weight_block co ci w W j i) -> teq t (x_cut ci w X i) -> teq g (y_cut co w dY j) ->
    exists z, back_b u true wt t g = Ok z /\ tshape z = [subshape1 co j cout] /\
    forall c, 0 <= c < subshape1 co j cout -> evaluates M (bias_terms dY b ys (start1 co j cout + c)) (tat z [c])).
  { intros u j i wt t g Hj Hi Q1 Q2 Q3. eapply cut_bias; eauto. }
  destruct (Nat.eqb_spec (length (p_ranks Pw)) 1) as [E1|E1].
  - (* one worker *)
    pose proof HE as [_ E4]. destruct (E4 E1) as [E5 E6].
    assert (Sv : forall v, In v (p_ranks Pw) -> serial Pw v = true).
    { intros v Hv. unfold serial. apply is_active_spec in Hv. now rewrite Hv, E1. }
    destruct (one_shape Px Py Pw co ci S w groups cin cout W bias X Y0 HL E1 weight bias_of HH) as (Q1 & Q2 & _).
    assert (W0 : forall v, In v (p_ranks Pw) -> worker_at Pw (0 :: 0 :: repeat 0 nk) v /\ worker_at Px (0 :: 0 :: repeat 0 nk) v /\ worker_at Py (0 :: 0 :: repeat 0 nk) v).
    { intros v Hv.
      destruct (worker_at_exists Pw v Ww Hv) as [k1 K1]. destruct (Iw _ _ K1) as (j & i & -> & Hj & Hi).
      destruct (worker_at_exists Px v Wx) as [k2 K2]; [now rewrite E5|]. destruct (Ix _ _ K2) as (i2 & -> & Hi2).
      destruct (worker_at_exists Py v Wy) as [k3 K3]; [now rewrite E6|]. destruct (Iy _ _ K3) as (j3 & -> & Hj3).
      assert (j = 0) by lia. assert (i = 0) by lia. assert (i2 = 0) by lia. assert (j3 = 0) by lia. now subst. }
    split; [|split; [|split; [|split; [|split]]]].
    + apply (assembled_input Px Py Pw co ci w groups cin cout X W bias b xs ys weight bias_of dY HD M).
      intros i v Hv Hi. assert (i = 0) by lia. subst i. pose proof (worker_at_In _ _ _ Hv) as Hin. rewrite E5 in Hin.
      destruct (W0 v Hin) as (B1 & B2 & B3).
      destruct (LinX v 0 0 (weight v) (x v) (dy v) ltac:(lia) ltac:(lia) (Bw _ _ _ B1) (Bx _ _ B2) (By _ _ B3)) as (z & Ez & Sz & Vz).
      exists z. split; [unfold channel_backward_by; rewrite active_test by auto; rewrite Rx, Ry; cbn [rbind]; now rewrite Sv|]. split; [exact Sz|].
      intros b' ch q Hq. replace (zrange co) with [0] by now rewrite Q1. cbn [flat_map]. rewrite app_nil_r. now apply Vz.
    + apply (assembled_weight Px Py Pw co ci w groups cin cout X W bias b xs ys weight bias_of dY HD M).
      intros j i v Hv Hj Hi. pose proof (worker_at_In _ _ _ Hv) as Hin. destruct (W0 v Hin) as (B1 & B2 & B3).
      assert (j = 0) by lia. assert (i = 0) by lia. subst j i.
      destruct (LinW v 0 0 (weight v) (x v) (dy v) Hj Hi (Bw _ _ _ B1) (Bx _ _ B2) (By _ _ B3)) as (z & Ez & Sz & Vz).
      exists z. split; [unfold channel_weight_by, channel_gradient_by; rewrite Rx, Ry; cbn [rbind]; now rewrite Sv|]. auto.
    + intros Hbn. apply (assembled_bias Px Py Pw co ci w groups cin cout X W bias b xs ys weight bias_of dY HD M).
      intros j v Hv Hj. pose proof (worker_at_In _ _ _ Hv) as Hin. destruct (W0 v Hin) as (B1 & B2 & B3). assert (j = 0) by lia. subst j.
      destruct (LinB v 0 0 (weight v) (x v) (dy v) Hj ltac:(lia) (Bw _ _ _ B1) (Bx _ _ B2) (By _ _ B3)) as (z & Ez & Sz & Vz).
      exists z. split; [|auto]. unfold channel_bias_by, channel_gradient_by. rewrite Rx, Ry. cbn [rbind]. rewrite Sv by auto.
      apply (index_in_spec Pw v _ Ww) in Hv. rewrite Hv. destruct bias; [|congruence]. cbn [has_bias andb orb]. now rewrite Ez.
    + intros v Hn. unfold channel_bias_by. destruct (index_in Pw v) as [idx|] eqn:Hv; [|reflexivity].
      destruct Hn as [Hn|Hn]; [now rewrite Hn|]. exfalso. apply (index_in_spec Pw v _ Ww) in Hv.
      destruct (Iw _ _ Hv) as (j & i & E & Hj & Hi). subst idx. assert (i = 0) by lia. subst i. exact (Hn j Hv).
    + intros v Hv Hn. exfalso. apply Hn. rewrite E5. destruct Hv; auto. congruence.
    + intros v N1 N2 N3. unfold channel_backward_by. now rewrite inactive_test.
  - (* several workers *)
    assert (Nq : Nat.eqb (length (p_ranks Pw)) 1 = false) by (now apply Nat.eqb_neq).
    assert (Sv : forall v, serial Pw v = false) by (intros v; unfold serial; now rewrite Nq, andb_false_r).
    assert (Mv : forall v, partner_missing Pw v = false) by (intros v; unfold partner_missing; now rewrite Nq, andb_false_r).
    set (local := channel_local_by torch Pw (has_bias bias) weight bias_of).
    set (shp := fun u => match index_in Pw u with Some (j :: i :: s) => part_shape co S w cout b ys j s | _ => [] end).
    set (GB := fun u z => match index_in Pw u with
                         | Some (j :: i :: s) => forall b' ch q, valid_index (tshape (x_cut ci w X i)) (b' :: ch :: q) ->
                             evaluates M (input_share co ci w groups cin cout W ys dY j i b' ch q) (tat z (b' :: ch :: q))
                         | _ => True end).
    assert (Eo : forall j i s u, worker_at Pw (j :: i :: s) u -> shp u = part_shape co S w cout b ys j s).
    { intros j i s u Hu. unfold shp. apply index_in_spec in Hu; auto. now rewrite Hu. }
    assert (Shx : forall i, 0 <= i < ci -> tshape (x_cut ci w X i) = b :: subshape1 ci i cin :: xs).
    { intros i Hi. eapply cut_x_shape; eauto. }
    assert (Shy : forall j, 0 <= j < co -> tshape (y_cut co w dY j) = b :: subshape1 co j cout :: ys).
    { intros j Hj. eapply cut_y_shape; eauto. }
    assert (Np : forall (n k m : Z) l, 0 <= n -> 0 < m -> nonneg_shape l -> nonneg_shape (b :: subshape1 m k n :: l) /\ b :: subshape1 m k n :: l <> []).
    { intros n k m l Hn Hm Hl. split; [|discriminate]. constructor; [lia|]. constructor; [now apply subshape1_nonneg|auto]. }
    assert (HXx : forall v, In v (p_ranks Px) \/ In v (p_ranks Pw) \/ In v (p_ranks (y_part Py co S)) -> nonneg_shape (tshape (x v)) /\ tshape (x v) <> []).
    { intros v Hv. destruct (in_dec Z.eq_dec v (p_ranks Px)) as [Hin|Hin]; [|apply HO; auto; destruct Hv as [?|[?|?]]; auto; contradiction].
      destruct (worker_at_exists Px v Wx Hin) as [idx Hi]. destruct (Ix _ _ Hi) as (i & -> & Hi'). destruct (Bx i v Hi) as [-> _]. rewrite Shx by auto.
      apply Np; auto; lia. }
    assert (HYy : forall v, In v (p_ranks Px) \/ In v (p_ranks Pw) \/ In v (p_ranks (y_part Py co S)) -> nonneg_shape (tshape (dy v)) /\ tshape (dy v) <> []).
    { intros v Hv. destruct (in_dec Z.eq_dec v (p_ranks Py)) as [Hin|Hin]; [|apply HOd; auto; destruct Hv as [?|[?|?]]; auto; contradiction].
      destruct (worker_at_exists Py v Wy Hin) as [idx Hi]. destruct (Iy _ _ Hi) as (i & -> & Hi'). destruct (By i v Hi) as [-> _]. rewrite Shy by auto.
      apply Np; auto; try lia. eapply Forall_impl; [|exact A11]. cbn. lia. }
    assert (HLl : forall s u t, paired Px Pw false false s u -> teq t (x s) -> exists t', local u t = Ok t' /\ tshape t' = shp u /\ True).
    { intros s u t Hp Ht. destruct (c_source _ _ _ _ _ _ HP s u Hp) as (j & i & s' & Hu & Hs & Hj & Hi & Hs'). rewrite (Eo _ _ _ _ Hu).
      apply Ones in Hs'. subst s'. unfold local, channel_local_by. pose proof Hu as Hu'. apply index_in_spec in Hu'; auto. rewrite Hu'. cbn [nth].
      destruct (padded_share _ _ _ _ _ _ _ _ _ _ _ _ _ _ _ _ _ _ HD M torch HT j i u (weight u)
        (if (i =? 0) && has_bias bias then Some (bias_of u) else None) t eq_refl Hj Hi (Bw _ _ _ Hu)) as (z & Z1 & Z2 & _).
      - destruct HH as (_ & HH2 & _). destruct (Z.eqb_spec i 0) as [->|]; cbn [andb]; auto. unfold bias_block. destruct bias as [bb|]; cbn [has_bias]; auto.
      - eapply teq_trans; [exact Ht|]. now apply Bx.
      - exists z. split; [exact Z1|]. split; [exact Z2|exact I]. }
    assert (Ps : forall j, 0 <= j < co -> part_shape co S w cout b ys j (repeat 0 nk) = b :: subshape1 co j cout :: ys).
    { intros j Hj. unfold part_shape. do 2 f_equal. destruct A10 as [Ly _]. apply list_eq_nth with (d := 0); rewrite vec_length; [congruence|].
      intros k Hk. rewrite vec_nth by auto. unfold S, nk. rewrite nth_zeros, nth_ones by auto. apply unit_sub. }
    assert (HOo : forall u, In u (p_ranks Pw) -> nonneg_shape (shp u) /\ shp u <> []).
    { intros u Hu. destruct (worker_at_exists Pw u Ww Hu) as [idx Hi]. destruct (Iw _ _ Hi) as (j & i & -> & Hj & Hi'). rewrite (Eo _ _ _ _ Hi), Ps by auto.
      apply Np; try lia. eapply Forall_impl; [|exact A11]. cbn. lia. }
    assert (HSs : forall d u u', paired (y_part Py co S) Pw false false d u -> paired (y_part Py co S) Pw false false d u' -> shp u = shp u').
    { intros d u u' Hu Hu'. apply (c_destination _ _ _ _ _ _ HP) in Hu as (j & i & s & Hu & Hd), Hu' as (j' & i' & s' & Hu' & Hd').
      rewrite (Eo _ _ _ _ Hu), (Eo _ _ _ _ Hu'). pose proof (worker_at_fun Py _ _ d Wy Hd Hd') as E. inversion E. reflexivity. }
    assert (HGg : forall d u, paired (y_part Py co S) Pw false false d u -> tshape (dy d) = shp u).
    { intros d u Hu. apply (c_destination _ _ _ _ _ _ HP) in Hu as (j & i & s & Hu & Hd). rewrite (Eo _ _ _ _ Hu).
      destruct (Iy _ _ Hd) as (j' & E & Hj). inversion E; subst j' s. destruct (By _ _ Hd) as [-> _]. now rewrite Shy, Ps. }
    assert (HNn : forall d, In d (p_ranks (y_part Py co S)) -> exists u, paired (y_part Py co S) Pw false false d u).
    { intros d Hin. destruct (worker_at_exists Py d Wy Hin) as [idx Hd]. destruct (Iy _ _ Hd) as (j & -> & Hj). exists (wk Pw (j :: 0 :: repeat 0 nk)).
      apply (c_destination _ _ _ _ _ _ HP). exists j, 0, (repeat 0 nk). split; [|exact Hd]. apply wk_worker; [exact Ww|]. apply (pw_ok _ _ _ _ _ _ HP); [exact Hj|lia|apply (zeros_index w)]. }
    assert (Triple : forall s u d, paired Px Pw false false s u -> paired (y_part Py co S) Pw false false d u ->
      exists j i, worker_at Pw (j :: i :: repeat 0 nk) u /\ worker_at Px (0 :: i :: repeat 0 nk) s /\ worker_at Py (0 :: j :: repeat 0 nk) d /\ 0 <= j < co /\ 0 <= i < ci).
    { intros s u d Hp Hq. destruct (c_source _ _ _ _ _ _ HP s u Hp) as (j & i & s' & Hu & Hs & Hj & Hi & Hs'). apply Ones in Hs'. subst s'.
      apply (c_destination _ _ _ _ _ _ HP) in Hq as (j' & i' & s' & Hu' & Hd). pose proof (worker_at_fun Pw _ _ u Ww Hu Hu') as E. inversion E; subst.
      exists j', i'. auto. }
    assert (HBb : forall s u d t g, paired Px Pw false false s u -> teq t (x s) -> paired (y_part Py co S) Pw false false d u -> teq g (dy d) ->
      exists t', back_x u true (weight u) t g = Ok t' /\ tshape t' = tshape (x s) /\ GB u t').
    { intros s u d t g Hp Ht Hq Hgg. destruct (Triple s u d Hp Hq) as (j & i & Hu & Hs & Hd & Hj & Hi).
      destruct (LinX u j i (weight u) t g Hj Hi (Bw _ _ _ Hu)) as (z & Z1 & Z2 & Z3); [eapply teq_trans; eauto..|].
      exists z. split; [exact Z1|]. split; [destruct (Bx i s Hs) as [-> _]; exact Z2|]. unfold GB. apply index_in_spec in Hu; auto. rewrite Hu. exact Z3. }
    assert (Fl : bc_flags (y_part Py co S) false false) by (left; reflexivity).
    assert (Lay : forall bk j i u, worker_at Pw (j :: i :: repeat 0 nk) u -> exists t g, teq t (x_cut ci w X i) /\ teq g (y_cut co w dY j) /\ 0 <= j < co /\ 0 <= i < ci /\
      channel_gradient_by torch Px Py Pw (has_bias bias) dt dt' rg rg' weight bias_of x dy bk u = bk u true (weight u) t g).
    { intros bk j i u Hu.
      destruct (work_layer_by Px Pw (y_part Py co S) false false false dt dt' rg rg' local x shp (fun _ _ => True)
                  (c_bc _ _ _ _ _ _ HP) (c_rd _ _ _ _ _ _ HP) Fl HXx HLl HOo HSs dy HYy HGg HNn (fun u => bk u true (weight u)) u (worker_at_In _ _ _ Hu))
        as (s & d & t & g & Hp & Ht & Hq & Hg' & E).
      destruct (Triple s u d Hp Hq) as (j' & i' & Hu' & Hs & Hd & Hj & Hi). pose proof (worker_at_fun Pw _ _ u Ww Hu Hu') as E'. inversion E'; subst j' i'.
      exists t, g. split; [eapply teq_trans; eauto|]. split; [eapply teq_trans; eauto|]. split; [auto|]. split; [auto|].
      unfold channel_gradient_by. rewrite Rx, Ry. cbn [rbind]. rewrite Sv. exact E. }
    destruct (work_back_sum_by M red HM Px Pw (y_part Py co S) false false false dt dt' rg rg' local x shp (fun _ _ => True)
                (c_bc _ _ _ _ _ _ HP) (c_rd _ _ _ _ _ _ HP) Fl HXx HLl HOo HSs (fun u => back_x u true (weight u)) dy GB HYy HGg HNn HBb) as (A & B & C).
    assert (Run : forall v, In v (p_ranks Px) \/ In v (p_ranks Py) \/ In v (p_ranks Pw) ->
      channel_backward_by red torch back_x Px Py Pw (has_bias bias) dt dt' rg rg' weight bias_of x dy v =
      work_backward_by red Px Pw (y_part Py co S) false false false dt dt' rg rg' local (fun u => back_x u true (weight u)) x dy v).
    { intros v Hv. unfold channel_backward_by. rewrite active_test by auto. rewrite Rx, Ry. cbn [rbind]. now rewrite Sv, Mv. }
    split; [|split; [|split; [|split; [|split]]]].
    + apply (assembled_input Px Py Pw co ci w groups cin cout X W bias b xs ys weight bias_of dY HD M).
      intros i v Hv Hi. pose proof (worker_at_In _ _ _ Hv) as Hin. rewrite Run by auto.
      destruct (A v _ Hin (c_receivers _ _ _ _ _ _ HP i _ v Hv)) as (t & z & E & T1 & T2 & T3). exists t. split; [exact E|].
      destruct (Bx i v Hv) as [Ex _]. rewrite Ex in T1. split; [exact T1|]. intros b' ch q Hq.
      assert (Wk : forall j, 0 <= j < co -> worker_at Pw (j :: i :: repeat 0 nk) (wk Pw (j :: i :: repeat 0 nk))).
      { intros j Hj. apply wk_worker; auto. apply (pw_ok _ _ _ _ _ _ HP); auto. apply (zeros_index w). }
      rewrite flat_map_concat_map.
      pose proof (evaluates_concat M (map (fun j => (input_share co ci w groups cin cout W ys dY j i b' ch q,
                                           tat (z (wk Pw (j :: i :: repeat 0 nk))) (b' :: ch :: q))) (zrange co)) (tat t (b' :: ch :: q))) as K.
      rewrite !map_map in K. cbn [fst snd] in K. apply K.
      * intros p Hp. apply in_map_iff in Hp as (j & <- & Hj). apply in_zrange in Hj. cbn [fst snd].
        destruct (T2 (wk Pw (j :: i :: repeat 0 nk))) as (_ & Gz); [apply in_map_iff; exists j; split; auto; now apply in_zrange|].
        unfold GB in Gz. rewrite (proj2 (index_in_spec Pw _ _ Ww) (Wk j Hj)) in Gz. now apply Gz.
      * specialize (T3 (b' :: ch :: q)). unfold nums in T3. rewrite map_map in T3. exact T3.
    + apply (assembled_weight Px Py Pw co ci w groups cin cout X W bias b xs ys weight bias_of dY HD M).
      intros j i v Hv _ _. destruct (Lay back_w j i v Hv) as (t & g & Ht & Hg' & Hj & Hi & E). unfold channel_weight_by. rewrite E.
      exact (LinW v j i (weight v) t g Hj Hi (Bw _ _ _ Hv) Ht Hg').
    + intros Hbn. apply (assembled_bias Px Py Pw co ci w groups cin cout X W bias b xs ys weight bias_of dY HD M).
      intros j v Hv _. destruct (Lay back_b j 0 v Hv) as (t & g & Ht & Hg' & Hj & Hi & E).
      destruct (LinB v j 0 (weight v) t g Hj Hi (Bw _ _ _ Hv) Ht Hg') as (z & Ez & Z2). exists z. split; [|exact Z2].
      unfold channel_bias_by. rewrite E. apply (index_in_spec Pw v _ Ww) in Hv. rewrite Hv. destruct bias; [|congruence].
      cbn [has_bias andb nth]. rewrite Z.eqb_refl, orb_true_r. now rewrite Ez.
    + intros v Hn. unfold channel_bias_by. destruct (index_in Pw v) as [idx|] eqn:Hv; [|reflexivity].
      destruct Hn as [Hn|Hn]; [now rewrite Hn|]. rewrite Sv. apply (index_in_spec Pw v _ Ww) in Hv.
      destruct (Iw _ _ Hv) as (j & i & -> & Hj & Hi). cbn [nth orb].
      destruct (i =? 0) eqn:E0; [|now rewrite andb_false_r]. apply Z.eqb_eq in E0. subst i. now apply Hn in Hv.
    + intros v Hv Hn. rewrite Run by tauto. apply B; auto.
    + intros v N1 N2 N3. unfold channel_backward_by. now rewrite inactive_test.
Qed.

Section Exact.
  Context {R : CRing}.
  Add Ring R_ring : (rth R).

  Lemma input_terms_sum w groups cin cout (W dY : tensor R) b xs ys b' ch q : length xs = length (w_kernel w) -> tshape dY = b :: cout :: ys ->
    sumf (input_terms w groups cin cout W dY ys b' ch q) exact_term =
    tat (input_gradient (conv_coefficients cout groups W) w (b :: cin :: xs) dY) (b' :: ch :: q).
  Proof.
    intros Lx ED. cbn [input_gradient tat]. rewrite ED. cbn [nth skipn]. unfold input_terms, conv_coefficients.
    rewrite sumf_flat_map. apply sumf_ext. intros c _. unfold seen_point, window_at. rewrite Lx.
    destruct ((c / (cout / groups) * (cin / groups) <=? ch) && (ch <? c / (cout / groups) * (cin / groups) + cin / groups)).
    - rewrite sumf_flat_map. apply sumf_ext. intros o _. rewrite sumf_flat_map. apply sumf_ext. intros t _.
      destruct (list_eq_dec Z.eq_dec _ q); [|apply sumf_nil]. rewrite sumf_cons, sumf_nil. cbn [exact_term]. ring.
    - rewrite sumf_nil. symmetry. apply sumf_zero. intros o _. apply sumf_zero. intros t _. destruct (list_eq_dec Z.eq_dec _ q); [ring|reflexivity].
  Qed.

  Lemma weight_marks w groups cin cout (X dY : tensor R) b ys c k t m e :
    In (m, e) (weight_terms w groups cin cout X dY b ys c k t) -> m = true -> exists a, e = Prod rzero a.
  Proof.
    unfold weight_terms. rewrite in_flat_map. intros (b' & _ & H) ->. apply in_map_iff in H as (o & E & _).
    inversion E as [[E1 E2]]. apply negb_true_iff in E1. unfold value_at. rewrite E1. eauto.
  Qed.
  Lemma weight_marks_zero w groups cin cout (X dY : tensor R) b ys c k t m e :
    In (m, e) (weight_terms w groups cin cout X dY b ys c k t) -> m = true -> exact_term e = rzero.
  Proof. intros H E. destruct (weight_marks _ _ _ _ _ _ _ _ _ _ _ _ _ H E) as [a ->]. cbn [exact_term]. ring. Qed.
  Lemma weight_terms_sum w groups cin cout (X dY : tensor R) b xs ys c k t : length xs = length (w_kernel w) -> tshape X = b :: cin :: xs ->
    tshape dY = b :: cout :: ys ->
    sumf (weight_terms w groups cin cout X dY b ys c k t) (fun p => exact_term (snd p)) = tat (weight_gradient w cout groups X dY) (c :: k :: t).
  Proof.
    intros Lx EX ED. cbn [weight_gradient tat]. rewrite ED, EX. cbn [nth skipn]. unfold weight_terms, seen_point, window_at. rewrite Lx, EX.
    rewrite sumf_flat_map. apply sumf_ext. intros b' _. rewrite sumf_map. apply sumf_ext. intros o _. cbn [snd exact_term]. ring.
  Qed.

  Lemma bias_terms_sum cout (dY : tensor R) b ys c : tshape dY = b :: cout :: ys ->
    sumf (bias_terms dY b ys c) exact_term = tat (bias_gradient cout dY) [c].
  Proof.
    intros ED. cbn [bias_gradient tat]. rewrite ED. cbn [nth skipn]. unfold bias_terms.
    rewrite sumf_flat_map. apply sumf_ext. intros b' _. rewrite sumf_map. apply sumf_ext. intros o _. reflexivity.
  Qed.
End Exact.

Lemma C74_exact_proof : C74_exact_statement.
Proof.
  intros R w groups cin cout X W bias b xs ys dY dX dW db (A1 & A2 & A3 & A4 & A5 & A6 & A7 & A8 & A9 & A10 & A11 & A12 & A13) ED.
  assert (KW : forall c k t r, may_evaluate (exact_machine R) (weight_terms w groups cin cout X dY b ys c k t) r <->
     r = tat (weight_gradient w cout groups X dY) (c :: k :: t)).
  { intros c k t r. rewrite <- (weight_terms_sum w groups cin cout X dY b xs ys c k t) by auto.
    assert (Z0 : forall m e, In (m, e) (weight_terms w groups cin cout X dY b ys c k t) -> m = true -> exact_term e = rzero).
    { intros m e. apply weight_marks_zero. }
    split.
    - intros (l & K & E). apply evaluates_exact in E. now rewrite E, (kept_sum _ _ Z0 K).
    - intros ->. exists (map snd (weight_terms w groups cin cout X dY b ys c k t)). split; [apply kept_all|].
      rewrite <- (kept_sum _ _ Z0 (kept_all _)). apply exact_evaluates. }
  assert (KX : forall b' ch q r, evaluates (exact_machine R) (input_terms w groups cin cout W dY ys b' ch q) r <->
     r = tat (input_gradient (conv_coefficients cout groups W) w (tshape X) dY) (b' :: ch :: q)).
  { intros b' ch q r. rewrite A7, <- (input_terms_sum w groups cin cout W dY b xs ys) by auto. split; [apply evaluates_exact|]. intros ->. apply exact_evaluates. }
  assert (KB : forall c r, evaluates (exact_machine R) (bias_terms dY b ys c) r <-> r = tat (bias_gradient cout dY) [c]).
  { intros c r. rewrite <- (bias_terms_sum cout dY b ys) by auto. split; [apply evaluates_exact|]. intros ->. apply exact_evaluates. }
  split; [|split].
  - split; intros [E V]; (split; [rewrite E; cbn [input_gradient tshape]; auto|]).
    + intros idx Hi. pose proof Hi as Hi'. rewrite E in Hi. apply valid_index_cons_inv in Hi as (b' & r & -> & _ & Hr).
      apply valid_index_cons_inv in Hr as (ch & q & -> & _ & _). now apply KX, V.
    + intros b' ch q Hi. now apply KX, V.
  - split; intros [E V]; (split; [rewrite E; cbn [weight_gradient tshape]; rewrite A7; auto|]).
    + intros idx Hi. pose proof Hi as Hi'. rewrite E in Hi. apply valid_index_cons_inv in Hi as (c & r & -> & _ & Hr).
      apply valid_index_cons_inv in Hr as (k & q & -> & _ & _). now apply KW, V.
    + intros c k t Hi. now apply KW, V.
  - split; intros [E V]; (split; [rewrite E; cbn [bias_gradient tshape]; auto|]).
    + intros idx Hi. rewrite E in Hi. apply valid_index_cons_inv in Hi as (c & r & -> & Hc & Hr). apply Forall2_length in Hr as Lr.
      destruct r; [|discriminate]. now apply KB, V.
    + intros c Hc. apply KB, V. rewrite E. cbn [bias_gradient tshape]. apply valid_index_cons. split; [exact Hc|constructor].
Qed.

Theorem C74_channel_gradients : C74_channel_statement.
Proof. exact C74_channel_proof. Qed.
Theorem C74_exact : C74_exact_statement.
Proof. exact C74_exact_proof. Qed.

(** * Example

    torch's gradients without a promise of an order, and C54's layer with the machine of
    C61; without rounding, the numbers are 4970 and 2668. *)
Section Orders.
  Context {R : CRing}.
  Variable M : machine R.
  Variables (w : window) (groups : Z).

  Definition alternate_back_x (v : Z) (padded : bool) (W X dY : tensor R) : result (tensor R) :=
    let w' := if padded then w else bare w in
    match tshape X, tshape dY with
    | b :: cin :: xs, _ :: cout :: ys => Ok (mkt (b :: cin :: xs) (fun i => match i with
        | b' :: ch :: q => alternate_terms M v (input_terms w' groups cin cout W dY ys b' ch q)
        | _ => rzero end))
    | _, _ => Raise ErrTorch
    end.
  Definition alternate_back_w (v : Z) (padded : bool) (W X dY : tensor R) : result (tensor R) :=
    let w' := if padded then w else bare w in
    match tshape X, tshape dY with
    | b :: cin :: xs, _ :: cout :: ys => Ok (mkt (cout :: cin / groups :: w_kernel w) (fun i => match i with
        | c :: k :: t => alternate_marked M v (weight_terms w' groups cin cout X dY b ys c k t)
        | _ => rzero end))
    | _, _ => Raise ErrTorch
    end.
  Definition alternate_back_b (v : Z) (padded : bool) (W X dY : tensor R) : result (tensor R) :=
    match tshape dY with
    | b :: cout :: ys => Ok (mkt [cout] (fun i => match i with [c] => alternate_terms M v (bias_terms dY b ys c) | _ => rzero end))
    | _ => Raise ErrTorch
    end.
  Lemma alternate_back_ok : torch_conv_back_by M w groups alternate_back_x alternate_back_w alternate_back_b.
  Proof.
    intros v padded cin cout X W b xs ys dY w' (A1 & A2 & A3 & A4 & A5 & A6 & A7 & A8 & A9 & A10 & A11 & A12 & A13) ED.
    unfold alternate_back_x, alternate_back_w, alternate_back_b. fold w'. rewrite A7, ED.
    split; [|split]; (eexists; split; [reflexivity|]); (split; [cbn [tshape]; try reflexivity|]).
    - intros b' ch q _. apply alternate_terms_ok.
    - unfold w'. destruct padded; reflexivity.
    - intros c k t _. apply alternate_marked_ok.
    - intros c _. apply alternate_terms_ok.
  Qed.
End Orders.

Example C74_example :
  adds ex61_M (alternate ex61_M) /\ torch_conv_by ex61_M ex33_win 1 (alternate_conv ex61_M ex33_win 1) /\
  torch_conv_back_by ex61_M ex33_win 1 (alternate_back_x ex61_M ex33_win 1) (alternate_back_w ex61_M ex33_win 1) (alternate_back_b ex61_M) /\
  distributed_conv ex33_x ex33_y ex33_w 3 2 [1] ex33_win 1 3 5 ex33_X ex33_W (Some ex33_b) 2 [4] [4] ex33_weight ex33_bias /\
  holds_blocks ex33_x (balanced [2; 3; 4] [1; 2; 1]) ex33_X ex33_in /\ others_pass ex33_x ex33_y ex33_w ex33_in /\
  tshape ex54_dY = [2; 5; 4] /\ holds_blocks ex33_y (balanced [2; 5; 4] [1; 3; 1]) ex54_dY ex54_dy /\ others_pass ex33_y ex33_x ex33_w ex54_dy /\
  let dx := channel_backward_by (alternate ex61_M) (alternate_conv ex61_M ex33_win 1) (alternate_back_x ex61_M ex33_win 1) ex33_x ex33_y ex33_w true
              (fun _ => 0) (fun _ => 0) (fun _ => true) (fun _ => true) ex33_weight ex33_bias ex33_in ex54_dy in
  let dW := channel_weight_by (alternate_conv ex61_M ex33_win 1) (alternate_back_w ex61_M ex33_win 1) ex33_x ex33_y ex33_w true
              (fun _ => 0) (fun _ => 0) (fun _ => true) (fun _ => true) ex33_weight ex33_bias ex33_in ex54_dy in
  let db := channel_bias_by (alternate_conv ex61_M ex33_win 1) (alternate_back_b ex61_M) ex33_x ex33_y ex33_w true
              (fun _ => 0) (fun _ => 0) (fun _ => true) (fun _ => true) ex33_weight ex33_bias ex33_in ex54_dy in
  tshape (val (dx 1)) = [2; 1; 4] /\ tat (val (dx 1)) [0; 0; 1] = 4896 /\
  tshape (val (dW 4)) = [2; 1; 3] /\ tat (val (dW 4)) [1; 0; 2] = 2640 /\
  (exists t, db 3 = Some (Ok t) /\ map (tat t) (indices [2]) = [164; 196]) /\ db 4 = None /\
  tshape (val (dx 7)) = [2; 0] /\ dx 8 = Ok (ex54_dy 8).
Proof.
  destruct C70_channel_example as (E1 & E2 & E3 & E4 & E5 & _). destruct C54_example as (_ & _ & _ & _ & _ & F1 & F2 & F3 & _).
  split; [exact E1|]. split; [exact E2|]. split; [apply alternate_back_ok|]. split; [exact E3|]. split; [exact E4|]. split; [exact E5|].
  split; [reflexivity|]. split; [exact F2|]. split; [exact F3|]. cbv zeta.
  do 4 (split; [vm_compute; reflexivity|]). split; [|split; [vm_compute; reflexivity|split; [vm_compute; reflexivity|reflexivity]]].
  eexists. split; [reflexivity|vm_compute; reflexivity].
Qed.

Print Assumptions C74_channel_gradients.
Print Assumptions C74_exact.
