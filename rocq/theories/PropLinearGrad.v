(** The gradients of the distributed linear layer: C50. *)

From Verif Require Import Prelude SpecIndex SpecLayout SpecPartition ModelSlicing ModelDecomposition ModelPartition ProofSlicing
  ProofDecomposition ProofPartition Ring Tensor ModelCollectives ProofCollectives PropCollectives Blocks ModelRepartition
  ProofRepartition ProofHaloMixin ModelLinear ProofWork PropLinear ModelWorkGrad ProofWorkGrad.

(** The gradients of Y = X W^T + b for X, W and b, given the gradient dY for Y. *)
Definition is_linear_gradient {R : CRing} (lead : list Z) (n_in n_out : Z) (X W dY dX dW db : tensor R) : Prop :=
  tshape dY = lead ++ [n_out] /\ tshape dX = lead ++ [n_in] /\ tshape dW = [n_out; n_in] /\ tshape db = [n_out] /\
  (forall l f, valid_index lead l -> 0 <= f < n_in ->
     tat dX (l ++ [f]) = sumf (zrange n_out) (fun o => rmul (tat dY (l ++ [o])) (tat W [o; f]))) /\
  (forall o f, 0 <= o < n_out -> 0 <= f < n_in ->
     tat dW [o; f] = sumf (indices lead) (fun l => rmul (tat dY (l ++ [o])) (tat X (l ++ [f])))) /\
  (forall o, 0 <= o < n_out -> tat db [o] = sumf (indices lead) (fun l => tat dY (l ++ [o]))).

Definition C50_statement : Prop :=
  forall (R : CRing) (Px Py Pw : part) (fi fo : Z) (same_xw same_wy : bool) dt dt' rg rg'
    (lead : list Z) (n_in n_out : Z) (X W Y dY dX dW db : tensor R) (b : option (tensor R)) (weight bias x dy : Z -> tensor R),
  linear_partitions Px Py Pw fi fo same_xw same_wy ->
  is_linear lead n_in n_out X W b Y ->
  is_linear_gradient lead n_in n_out X W dY dX dW db ->
  (* the input, the weight, the bias and the output's gradient are held in blocks *)
  (forall i v, worker_at Px [0; i] v -> teq (x v) (block (last_cut lead n_in fi) (piece lead i) X)) ->
  (forall idx v, worker_at Pw idx v -> teq (weight v) (block (balanced [n_out; n_in] [fo; fi]) idx W)) ->
  match b with
  | Some b => forall j v, worker_at Pw [j; 0] v -> teq (bias v) (block (balanced [n_out] [fo]) [j] b)
  | None => True
  end ->
  (forall j d, worker_at Py [0; j] d -> teq (dy d) (block (last_cut lead n_out fo) (piece lead j) dY)) ->
  (* other workers pass any tensor with a dimension *)
  (forall v, In v (p_ranks Pw) \/ In v (p_ranks Py) -> ~ In v (p_ranks Px) -> nonneg_shape (tshape (x v)) /\ tshape (x v) <> []) ->
  (forall v, In v (p_ranks Px) \/ In v (p_ranks Pw) -> ~ In v (p_ranks Py) -> nonneg_shape (tshape (dy v)) /\ tshape (dy v) <> []) ->
  let use_bias := match b with Some _ => true | None => false end in
  let dx := linear_backward Px Py Pw use_bias same_xw same_wy dt dt' rg rg' weight bias x dy in
  let dweight := linear_weight_gradient Px Py Pw use_bias same_xw same_wy dt dt' rg rg' weight bias x dy in
  let dbias := linear_bias_gradient Px Py Pw use_bias same_xw same_wy dt dt' rg rg' weight bias x dy in
  (* the gradients are the blocks of the sequential gradients *)
  (forall i s, worker_at Px [0; i] s -> exists t, dx s = Ok t /\ teq t (block (last_cut lead n_in fi) (piece lead i) dX)) /\
  (forall idx u, worker_at Pw idx u -> exists t, dweight u = Ok t /\ teq t (block (balanced [n_out; n_in] [fo; fi]) idx dW)) /\
  (forall j u, worker_at Pw [j; 0] u -> b <> None ->
     exists t, dbias u = Some (Ok t) /\ teq t (block (balanced [n_out] [fo]) [j] db)) /\
  (* no other worker has a bias, or an input to which a gradient belongs *)
  (forall j i u, worker_at Pw [j; i] u -> i <> 0 -> dbias u = None) /\
  (forall v, In v (p_ranks Pw) \/ In v (p_ranks Py) -> ~ In v (p_ranks Px) -> exists t n, dx v = Ok t /\ tshape t = [n; 0] /\ 0 <= n) /\
  (forall v, ~ In v (p_ranks Px) -> ~ In v (p_ranks Pw) -> ~ In v (p_ranks Py) -> dx v = Ok (dy v)).


Lemma cell_at {R : CRing} (fi fo n_in n_out : Z) (W : tensor R) j i o f : 0 <= j < fo -> 0 <= i < fi ->
  tat (block (balanced [n_out; n_in] [fo; fi]) [j; i] W) [o; f] = tat W [start1 fo j n_out + o; start1 fi i n_in + f].
Proof. intros Hj Hi. cbn [block tat]. unfold block_lo, balanced, vadd. cbn [map2]. now rewrite !balanced1_prefix by lia. Qed.

Section Values.
  Context {R : CRing}.
  Add Ring R_ring : (rth R).
  Variables (Px Py Pw : part) (fi fo : Z) (same_xw same_wy : bool).
  Hypothesis HP : linear_partitions Px Py Pw fi fo same_xw same_wy.
  Variables (lead : list Z) (n_in n_out : Z) (X W Y dY dX dW db : tensor R) (b : option (tensor R)) (weight bias x dy : Z -> tensor R).
  Hypothesis HY : is_linear lead n_in n_out X W b Y.
  Hypothesis HG : is_linear_gradient lead n_in n_out X W dY dX dW db.
  Hypothesis Hx : forall i v, worker_at Px [0; i] v -> teq (x v) (block (last_cut lead n_in fi) (piece lead i) X).
  Hypothesis Hw : forall idx v, worker_at Pw idx v -> teq (weight v) (block (balanced [n_out; n_in] [fo; fi]) idx W).
  Hypothesis Hd : forall j d, worker_at Py [0; j] d -> teq (dy d) (block (last_cut lead n_out fo) (piece lead j) dY).
  Let Pi := l_fi Px Py Pw fi fo same_xw same_wy HP.
  Let Po := l_fo Px Py Pw fi fo same_xw same_wy HP.

  (** What the backward of the layer of worker (j, i) must compute for its input. *)
  Definition part_gradient (j i : Z) : tensor R :=
    mkt (lead ++ [subshape1 fi i n_in]) (fun p =>
      sumf (zrange (subshape1 fo j n_out)) (fun o =>
        rmul (tat dY (removelast p ++ [start1 fo j n_out + o])) (tat W [start1 fo j n_out + o; start1 fi i n_in + last p 0]))).

  Lemma g_ranges j i : 0 <= j < fo -> 0 <= i < fi ->
    (forall o, 0 <= o < subshape1 fo j n_out -> 0 <= start1 fo j n_out + o < n_out) /\
    (forall f, 0 <= f < subshape1 fi i n_in -> 0 <= start1 fi i n_in + f < n_in).
  Proof.
    destruct HY as (SX & SW & SY & NL & N1 & N2 & _). intros Hj Hi.
    assert (K : forall P k n m, 0 < P -> 0 <= n -> 0 <= k < P -> 0 <= m < subshape1 P k n -> 0 <= start1 P k n + m < n).
    { intros P k n m HPp Hn Hk Hm. pose proof (start1_mono P 0 k n HPp Hn ltac:(lia)) as A. rewrite start1_0 in A by auto.
      pose proof (start1_mono P (k + 1) P n HPp Hn ltac:(lia)) as B. rewrite start1_P, start1_step in B by lia. lia. }
    split; intros; apply K; auto.
  Qed.

  Section Worker.
    Variables (s u d : Z) (t g : tensor R) (j i : Z).
    Hypothesis Hu : worker_at Pw [j; i] u.
    Hypothesis Hs : worker_at Px [0; i] s.
    Hypothesis Hdj : worker_at Py [0; j] d.
    Hypothesis Ht : teq t (x s).
    Hypothesis Hg : teq g (dy d).

    Lemma g_ji : 0 <= j < fo /\ 0 <= i < fi.
    Proof. apply (pw_valid Px Py Pw fi fo same_xw same_wy HP), Hu. Qed.
    Lemma g_t : tshape t = lead ++ [subshape1 fi i n_in] /\ forall l f, valid_index lead l -> 0 <= f < subshape1 fi i n_in ->
      tat t (l ++ [f]) = tat X (l ++ [start1 fi i n_in + f]).
    Proof.
      destruct g_ji as [Hj Hi]. pose proof (teq_trans _ _ _ Ht (Hx i s Hs)) as [St Vt].
      assert (St' : tshape t = lead ++ [subshape1 fi i n_in]) by (rewrite St; now apply last_cut_shape).
      split; auto. intros l f Hl Hf. rewrite Vt by (rewrite St'; apply valid_snoc; eauto).
      apply last_cut_at; auto. now apply valid_index_length in Hl.
    Qed.
    Lemma g_g : tshape g = lead ++ [subshape1 fo j n_out] /\ forall l o, valid_index lead l -> 0 <= o < subshape1 fo j n_out ->
      tat g (l ++ [o]) = tat dY (l ++ [start1 fo j n_out + o]).
    Proof.
      destruct g_ji as [Hj Hi]. pose proof (teq_trans _ _ _ Hg (Hd j d Hdj)) as [St Vt].
      assert (St' : tshape g = lead ++ [subshape1 fo j n_out]) by (rewrite St; now apply last_cut_shape).
      split; auto. intros l f Hl Hf. rewrite Vt by (rewrite St'; apply valid_snoc; eauto).
      apply last_cut_at; auto. now apply valid_index_length in Hl.
    Qed.
    Lemma g_w : tshape (weight u) = [subshape1 fo j n_out; subshape1 fi i n_in] /\
      forall o f, 0 <= o < subshape1 fo j n_out -> 0 <= f < subshape1 fi i n_in ->
        tat (weight u) [o; f] = tat W [start1 fo j n_out + o; start1 fi i n_in + f].
    Proof.
      destruct g_ji as [Hj Hi]. destruct (Hw _ _ Hu) as [Sw Vw].
      assert (Sw' : tshape (weight u) = [subshape1 fo j n_out; subshape1 fi i n_in]) by (rewrite Sw; now apply weight_shape).
      split; auto. intros o f Ho Hf. rewrite Vw; [now apply cell_at|]. rewrite Sw'.
      repeat (apply valid_index_cons; split; auto). constructor.
    Qed.

    Lemma g_input : exists t', torch_linear_input_grad (weight u) t g = Ok t' /\ teq t' (part_gradient j i).
    Proof.
      destruct g_t as [St Vt], g_g as [Sg Vg], g_w as [Sw Vw]. unfold torch_linear_input_grad. rewrite Sw.
      eexists. split; [reflexivity|]. split; [exact St|]. cbn [tshape tat]. rewrite St. intros p Hp.
      apply valid_snoc in Hp as (l & f & -> & Hl & Hf). cbn [part_gradient tat]. rewrite !removelast_last, !last_last.
      apply sumf_ext. intros o Ho. apply in_zrange in Ho. rewrite Vg, Vw by auto. reflexivity.
    Qed.

    Lemma g_weight : teq (torch_linear_weight_grad (weight u) t g) (block (balanced [n_out; n_in] [fo; fi]) [j; i] dW).
    Proof.
      destruct g_t as [St Vt], g_g as [Sg Vg], g_w as [Sw Vw], g_ji as [Hj Hi].
      destruct HG as (_ & _ & _ & _ & _ & VW & _). destruct (g_ranges j i Hj Hi) as [Ro Rf].
      unfold torch_linear_weight_grad. rewrite St, removelast_last. split; cbn [tshape]; [rewrite Sw; symmetry; now apply weight_shape|].
      rewrite Sw. intros p Hp. apply valid_index_cons_inv in Hp as (o & q & -> & Ho & Hp). apply valid_index_cons_inv in Hp as (f & q' & -> & Hf & Hp).
      apply valid_index_nil in Hp. subst q'. rewrite (cell_at fi fo n_in n_out dW j i o f) by auto.
      cbn [tat nth]. rewrite VW by auto. apply sumf_ext. intros l Hl. apply in_indices in Hl. now rewrite Vg, Vt by auto.
    Qed.

    Lemma g_bias : tshape (bias u) = [subshape1 fo j n_out] ->
      teq (torch_linear_bias_grad (bias u) t g) (block (balanced [n_out] [fo]) [j] db).
    Proof.
      intros Sb. destruct g_t as [St Vt], g_g as [Sg Vg], g_ji as [Hj Hi].
      destruct HG as (_ & _ & _ & _ & _ & _ & VB). destruct (g_ranges j i Hj Hi) as [Ro Rf].
      unfold torch_linear_bias_grad. rewrite St, removelast_last. split; cbn [tshape].
      - rewrite Sb. cbn [block tshape]. unfold block_shape, balanced. cbn [map2]. now rewrite balanced1_nth.
      - rewrite Sb. intros p Hp. apply valid_index_cons_inv in Hp as (o & q & -> & Ho & Hp). apply valid_index_nil in Hp. subst q.
        cbn [block tat]. unfold block_lo, balanced, vadd. cbn [map2 nth]. rewrite balanced1_prefix by lia.
        rewrite VB by auto. apply sumf_ext. intros l Hl. apply in_indices in Hl. now rewrite Vg by auto.
    Qed.
  End Worker.

  (** The parts add up to the block of the input's gradient. *)
  Lemma gradients_sum i p : 0 <= i < fi -> valid_index (lead ++ [subshape1 fi i n_in]) p ->
    sumf (zrange fo) (fun j => tat (part_gradient j i) p) = tat (block (last_cut lead n_in fi) (piece lead i) dX) p.
  Proof.
    intros Hi Hp. apply valid_snoc in Hp as (l & f & -> & Hl & Hf).
    destruct HY as (SX & SW & SY & NL & N1 & N2 & _). destruct HG as (_ & _ & _ & _ & VX & _).
    destruct (g_ranges 0 i ltac:(lia) Hi) as [_ Rf].
    rewrite last_cut_at; auto; [|now apply valid_index_length in Hl]. rewrite VX by auto.
    cbn [part_gradient tat]. rewrite removelast_last, last_last.
    apply (balanced_sum fo n_out (fun o => rmul (tat dY (l ++ [o])) (tat W [o; start1 fi i n_in + f]))); auto.
  Qed.

  Lemma l_receivers i s : worker_at Px [0; i] s -> receivers Px Pw s (map (fun j => wk Pw [j; i]) (zrange fo)).
  Proof.
    intros Hs. assert (HW : part_ok Pw) by apply HP. assert (HX : part_ok Px) by apply HP.
    assert (Hi : 0 <= i < fi).
    { destruct (px_index _ _ _ _ _ _ _ HP _ (proj1 Hs)) as (i' & E & Hi). inversion E. auto. }
    split.
    - apply NoDup_map_inj; [|apply zrange_nodup]. intros j j' Hj Hj' E. apply in_zrange in Hj, Hj'.
      apply wk_inj in E; try (apply (pw_valid _ _ _ _ _ _ _ HP)); auto. congruence.
    - intros u. rewrite in_map_iff. split.
      + intros (j & <- & Hj). apply in_zrange in Hj. exists [0; i], [j; i]. split; [auto|].
        split; [apply wk_worker; auto; now apply (pw_valid _ _ _ _ _ _ _ HP)|]. cbn [flip].
        assert (Ex : p_shape Px = [1; fi]) by apply HP. rewrite Ex. cbn. destruct (Z.eqb_spec fi 1); auto. do 2 f_equal. lia.
      + intros Hp. destruct (l_source _ _ _ _ _ _ _ HP s u Hp) as (j & i' & Hu & Hs' & Hj & Hi').
        pose proof (worker_at_fun Px _ _ s HX Hs Hs') as E. inversion E; subst i'.
        exists j. split; [now apply worker_wk|now apply in_zrange].
  Qed.
End Values.

Lemma C50_proof : C50_statement.
Proof.
  intros R Px Py Pw fi fo same_xw same_wy dt dt' rg rg' lead n_in n_out X W Y dY dX dW db b weight bias x dy
    HP HY HG Hx Hw Hb Hd Ho Hod use_bias dx dweight dbias.
  pose proof HY as (SX & SW & SY & NL & N1 & N2 & Sb & VY).
  assert (H1 : part_ok Px) by apply HP. assert (H2 : part_ok Py) by apply HP. assert (H3 : part_ok Pw) by apply HP.
  pose proof (l_fi _ _ _ _ _ _ _ HP) as Pi. pose proof (l_fo _ _ _ _ _ _ _ HP) as Po.
  set (out := fun u => match index_in Pw u with
                       | Some idx => part_output fi fo lead n_in n_out X W b (nth 0 idx 0) (nth 1 idx 0)
                       | None => x u end).
  set (back := fun u => match index_in Pw u with
                       | Some idx => part_gradient fi fo lead n_in n_out W dY (nth 0 idx 0) (nth 1 idx 0)
                       | None => x u end).
  assert (Eout : forall j i u, worker_at Pw [j; i] u -> out u = part_output fi fo lead n_in n_out X W b j i).
  { intros j i u Hu. unfold out. apply index_in_spec in Hu; auto. now rewrite Hu. }
  assert (Eback : forall j i u, worker_at Pw [j; i] u -> back u = part_gradient fi fo lead n_in n_out W dY j i).
  { intros j i u Hu. unfold back. apply index_in_spec in Hu; auto. now rewrite Hu. }
  assert (Iw : forall u, In u (p_ranks Pw) -> exists j i, worker_at Pw [j; i] u /\ 0 <= j < fo /\ 0 <= i < fi).
  { intros u Hu. destruct (worker_at_exists Pw u H3 Hu) as [idx Hi].
    destruct (pw_index _ _ _ _ _ _ _ HP idx (proj1 Hi)) as (j & i & -> & Hj & Hi'). eauto. }
  assert (Ix : forall v, In v (p_ranks Px) -> exists i, worker_at Px [0; i] v /\ 0 <= i < fi).
  { intros v Hv. destruct (worker_at_exists Px v H1 Hv) as [idx Hi]. destruct (px_index _ _ _ _ _ _ _ HP idx (proj1 Hi)) as (i & -> & Hi'). eauto. }
  assert (Iy : forall v, In v (p_ranks Py) -> exists j, worker_at Py [0; j] v /\ 0 <= j < fo).
  { intros v Hv. destruct (worker_at_exists Py v H2 Hv) as [idx Hi]. destruct (py_index _ _ _ _ _ _ _ HP idx (proj1 Hi)) as (i & -> & Hi'). eauto. }
  assert (NS : forall n P k, 0 < P -> 0 <= n -> nonneg_shape (lead ++ [subshape1 P k n])).
  { intros n P k HPp Hn. apply Forall_app. split; [auto|]. constructor; [now apply subshape1_nonneg|constructor]. }
  assert (NE : forall (z : Z), lead ++ [z] <> []) by (intros z E; destruct lead; discriminate).
  assert (HX : forall v, In v (p_ranks Px) \/ In v (p_ranks Pw) \/ In v (p_ranks Py) -> nonneg_shape (tshape (x v)) /\ tshape (x v) <> []).
  { intros v Hv. destruct (in_dec Z.eq_dec v (p_ranks Px)) as [Hin|Hin]; [|apply Ho; tauto].
    destruct (Ix v Hin) as (i & Hi & Hi'). destruct (Hx i v Hi) as [E _]. rewrite E. cbn [block tshape]. rewrite last_cut_shape by auto. auto. }
  assert (HDY : forall v, In v (p_ranks Px) \/ In v (p_ranks Pw) \/ In v (p_ranks Py) -> nonneg_shape (tshape (dy v)) /\ tshape (dy v) <> []).
  { intros v Hv. destruct (in_dec Z.eq_dec v (p_ranks Py)) as [Hin|Hin]; [|apply Hod; tauto].
    destruct (Iy v Hin) as (i & Hi & Hi'). destruct (Hd i v Hi) as [E _]. rewrite E. cbn [block tshape]. rewrite last_cut_shape by auto. auto. }
  assert (HL : forall s u t, paired Px Pw false false s u -> teq t (x s) ->
    exists t', sublinear Pw use_bias weight bias u t = Ok t' /\ teq t' (out u)).
  { intros s u t Hp Ht. destruct (l_source _ _ _ _ _ _ _ HP s u Hp) as (j & i & Hu & Hs & Hj & Hi).
    rewrite (Eout j i u Hu).
    exact (sub_ok Px Py Pw fi fo same_xw same_wy HP lead n_in n_out X W Y b weight bias x HY Hx Hw Hb s u t j i Hu Hs Ht). }
  assert (HO : forall u, In u (p_ranks Pw) -> nonneg_shape (tshape (out u)) /\ tshape (out u) <> []).
  { intros u Hu. destruct (Iw u Hu) as (j & i & Hu' & Hj & Hi). rewrite (Eout j i u Hu'). cbn [part_output tshape]. auto. }
  assert (HS : forall d u u', paired Py Pw false true d u -> paired Py Pw false true d u' -> tshape (out u) = tshape (out u')).
  { intros d u u' Hu Hu'. apply (l_destination _ _ _ _ _ _ _ HP) in Hu as (j & i & Hu & Hd'), Hu' as (j' & i' & Hu' & Hd'').
    rewrite (Eout _ _ _ Hu), (Eout _ _ _ Hu'). pose proof (worker_at_fun Py _ _ d H2 Hd' Hd'') as E. inversion E. reflexivity. }
  assert (HGd : forall d u, paired Py Pw false true d u -> tshape (dy d) = tshape (out u)).
  { intros d u Hu. apply (l_destination _ _ _ _ _ _ _ HP) in Hu as (j & i & Hu & Hd'). rewrite (Eout _ _ _ Hu).
    destruct (Hd j d Hd') as [-> _]. cbn [block tshape part_output]. apply last_cut_shape.
    apply (pw_valid Px Py Pw fi fo same_xw same_wy HP j i), Hu. }
  assert (HN : forall d, In d (p_ranks Py) -> exists u, paired Py Pw false true d u).
  { intros d Hin. destruct (Iy d Hin) as (j & Hj & Hj'). exists (wk Pw [j; 0]). apply (l_destination _ _ _ _ _ _ _ HP).
    exists j, 0. split; auto. apply wk_worker; auto. apply (pw_valid _ _ _ _ _ _ _ HP). lia. }
  assert (HB : forall s u d t g, paired Px Pw false false s u -> teq t (x s) -> paired Py Pw false true d u -> teq g (dy d) ->
    exists t', torch_linear_input_grad (weight u) t g = Ok t' /\ teq t' (back u)).
  { intros s u d t g Hp Ht Hq Hg. destruct (l_source _ _ _ _ _ _ _ HP s u Hp) as (j & i & Hu & Hs & Hj & Hi).
    apply (l_destination _ _ _ _ _ _ _ HP) in Hq as (j' & i' & Hu' & Hd'). pose proof (worker_at_fun Pw _ _ u H3 Hu Hu') as E.
    inversion E; subst j' i'. rewrite (Eback j i u Hu).
    exact (g_input Px Py Pw fi fo same_xw same_wy HP lead n_in n_out X W dY weight x dy Hx Hw Hd s u d t g j i Hu Hs Hd' Ht Hg). }
  assert (HT : forall s u, paired Px Pw false false s u -> tshape (back u) = tshape (x s)).
  { intros s u Hp. destruct (l_source _ _ _ _ _ _ _ HP s u Hp) as (j & i & Hu & Hs & Hj & Hi). rewrite (Eback _ _ _ Hu).
    destruct (Hx i s Hs) as [-> _]. cbn [block tshape part_gradient]. symmetry. now apply last_cut_shape. }
  assert (Lay : forall bk j i u, worker_at Pw [j; i] u ->
    exists s d t g, worker_at Px [0; i] s /\ worker_at Py [0; j] d /\ teq t (x s) /\ teq g (dy d) /\
      work_layer_gradient Px Pw Py same_xw same_wy true dt dt' rg rg' (sublinear Pw use_bias weight bias) x dy bk u = bk u t g).
  { intros bk j i u Hu.
    destruct (work_layer Px Pw Py same_xw same_wy true dt dt' rg rg' (sublinear Pw use_bias weight bias) x dy out
                (l_bc _ _ _ _ _ _ _ HP) (l_rd _ _ _ _ _ _ _ HP) (l_flags _ _ _ _ _ _ _ HP) HX (fun s u t p _ => HL s u t p) HO HS HDY HGd HN bk u (worker_at_In _ _ _ Hu))
      as (s & d & t & g & Hp & Ht & Hq & Hg & E).
    destruct (l_source _ _ _ _ _ _ _ HP s u Hp) as (j1 & i1 & Hu1 & Hs & _ & _). pose proof (worker_at_fun Pw _ _ u H3 Hu Hu1) as E1. inversion E1; subst j1 i1.
    apply (l_destination _ _ _ _ _ _ _ HP) in Hq as (j2 & i2 & Hu2 & Hd2). pose proof (worker_at_fun Pw _ _ u H3 Hu Hu2) as E2. inversion E2; subst j2 i2.
    exists s, d, t, g. auto. }
  destruct (work_back_sum Px Pw Py same_xw same_wy true dt dt' rg rg' (sublinear Pw use_bias weight bias) (fun v => torch_linear_input_grad (weight v)) x dy out back
              (l_bc _ _ _ _ _ _ _ HP) (l_rd _ _ _ _ _ _ _ HP) (l_flags _ _ _ _ _ _ _ HP) HX (fun s u t p _ => HL s u t p) HO HS HDY HGd HN
              (fun s u d t g a b c e _ => HB s u d t g a b c e) HT) as (A & B & C).
  split; [|split; [|split; [|split; [|split]]]].
  - intros i s Hs. assert (Hi : 0 <= i < fi).
    { destruct (px_index _ _ _ _ _ _ _ HP _ (proj1 Hs)) as (i' & Ej & Hi). inversion Ej. auto. }
    destruct (A s (map (fun j => wk Pw [j; i]) (zrange fo)) (worker_at_In _ _ _ Hs) ltac:(eapply l_receivers; eassumption)) as (t & E & T1 & T2).
    assert (Et : tshape t = lead ++ [subshape1 fi i n_in]).
    { rewrite T1. destruct (Hx i s Hs) as [-> _]. now apply last_cut_shape. }
    exists t. split; [exact E|]. split; [rewrite Et; symmetry; now apply last_cut_shape|].
    intros p Hp. rewrite T2 by auto. rewrite sumf_map. rewrite Et in Hp.
    transitivity (sumf (zrange fo) (fun j => tat (part_gradient fi fo lead n_in n_out W dY j i) p)); [|eapply gradients_sum; eassumption].
    apply sumf_ext. intros j Hj. apply in_zrange in Hj. rewrite (Eback j i); auto. apply wk_worker; auto. now apply (pw_valid _ _ _ _ _ _ _ HP).
  - intros idx u Hu. destruct (pw_index _ _ _ _ _ _ _ HP idx (proj1 Hu)) as (j & i & -> & Hj & Hi).
    destruct (Lay (fun v t g => Ok (torch_linear_weight_grad (weight v) t g)) j i u Hu) as (s & d & t & g & Hs & Hd' & Ht & Hg & E).
    eexists. split; [exact E|].
    eapply g_weight; eassumption.
  - intros j u Hu Hbn. destruct (Lay (fun v t g => Ok (torch_linear_bias_grad (bias v) t g)) j 0 u Hu) as (s & d & t & g & Hs & Hd' & Ht & Hg & E).
    assert (Hj : 0 <= j < fo) by (apply (pw_valid Px Py Pw fi fo same_xw same_wy HP j 0), Hu).
    exists (torch_linear_bias_grad (bias u) t g). split.
    + unfold dbias, linear_bias_gradient. apply (index_in_spec Pw u [j; 0] H3) in Hu as Ei. rewrite Ei. unfold sublinear_bias. cbn [last Z.eqb].
      unfold use_bias. destruct b; [|congruence]. f_equal. exact E.
    + eapply g_bias; try eassumption.
      destruct b as [b0|]; [|congruence]. destruct (Hb j u Hu) as [-> _]. cbn [block tshape]. unfold block_shape, balanced. cbn [map2].
      now rewrite balanced1_nth.
  - intros j i u Hu Hi. unfold dbias, linear_bias_gradient. apply (index_in_spec Pw u [j; i] H3) in Hu. rewrite Hu. unfold sublinear_bias. cbn [last].
    destruct (Z.eqb_spec i 0); [congruence|reflexivity].
  - exact B.
  - exact C.
Qed.

Theorem C50_linear_gradients : C50_statement.
Proof. exact C50_proof. Qed.

(** The formulas of [is_linear_gradient] do give the gradients: they are the
    transposes of the linear maps from X, W and b to Y. *)
Lemma sum_snoc {R : CRing} (n : Z) (F : list Z -> R) : forall lead, 
  sumf (indices (lead ++ [n])) F = sumf (indices lead) (fun l => sumf (zrange n) (fun f => F (l ++ [f]))).
Proof.
  intros lead. revert F. induction lead as [|m lead IH]; intros F.
  - cbn [app indices]. rewrite sumf_flat_map, sumf_cons, sumf_nil. cbn [indices]. 
    transitivity (sumf (zrange n) (fun f => F [f])); [|symmetry; apply radd_0_r].
    apply sumf_ext. intros f _. rewrite sumf_map, sumf_cons, sumf_nil. apply radd_0_r.
  - cbn [app indices]. rewrite !sumf_flat_map. apply sumf_ext. intros k _. rewrite !sumf_map. rewrite IH. reflexivity.
Qed.

Lemma sum_one {R : CRing} (n : Z) (F : list Z -> R) : sumf (indices [n]) F = sumf (zrange n) (fun f => F [f]).
Proof. pose proof (sum_snoc n F []) as E. cbn [app indices] in *. rewrite E, sumf_cons, sumf_nil. apply radd_0_r. Qed.

Section Transposes.
  Context {R : CRing}.
  Add Ring R_ring' : (rth R).

  Theorem C50_gradient_formulas (lead : list Z) (n_in n_out : Z) (X W dY dX dW db X' W' b' YX YW Yb : tensor R) :
    is_linear_gradient lead n_in n_out X W dY dX dW db -> tshape b' = [n_out] ->
    is_linear lead n_in n_out X' W None YX -> is_linear lead n_in n_out X W' None YW ->
    is_linear lead n_in n_out (tzeros (tshape X)) W (Some b') Yb ->
    inner YX dY = inner X' dX /\ inner YW dY = inner W' dW /\ inner Yb dY = inner b' db.
  Proof.
    intros (S1 & S2 & S3 & S4 & V1 & V2 & V3) Sb (X1 & X2 & X3 & X4 & X5 & X6 & _ & VX) (W1 & W2 & W3 & W4 & W5 & W6 & _ & VW)
      (B1 & B2 & B3 & B4 & B5 & B6 & _ & VB).
    unfold inner. rewrite X3, X1, W3, W2, B3, Sb. split; [|split].
    - rewrite !sum_snoc. apply sumf_ext. intros l Hl. apply in_indices in Hl.
      transitivity (sumf (zrange n_out) (fun o => sumf (zrange n_in) (fun f => rmul (rmul (tat X' (l ++ [f])) (tat W [o; f])) (tat dY (l ++ [o]))))).
      { apply sumf_ext. intros o Ho. apply in_zrange in Ho. rewrite VX, radd_0_r by auto. now rewrite <- sumf_mul_r. }
      rewrite sumf_exchange. apply sumf_ext. intros f Hf. apply in_zrange in Hf. rewrite V1 by auto. rewrite <- sumf_mul_l.
      apply sumf_ext. intros o _. ring.
    - rewrite sum_snoc.
      transitivity (sumf (zrange n_out) (fun o => sumf (zrange n_in) (fun f => sumf (indices lead) (fun l =>
                      rmul (rmul (tat X (l ++ [f])) (tat W' [o; f])) (tat dY (l ++ [o])))))).
      { rewrite sumf_exchange. apply sumf_ext. intros o Ho. rewrite sumf_exchange. apply sumf_ext. intros l Hl.
        apply in_zrange in Ho. apply in_indices in Hl. rewrite VW, radd_0_r by auto. now rewrite <- sumf_mul_r. }
      change [n_out; n_in] with ([n_out] ++ [n_in]). rewrite sum_snoc, sum_one. apply sumf_ext. intros o Ho. apply in_zrange in Ho.
      apply sumf_ext. intros f Hf. apply in_zrange in Hf. cbn [app]. rewrite V2 by auto. rewrite <- sumf_mul_l.
      apply sumf_ext. intros l _. ring.
    - rewrite sum_snoc, sumf_exchange. rewrite sum_one. apply sumf_ext. intros o Ho. apply in_zrange in Ho. cbn [app]. rewrite V3 by auto.
      rewrite <- sumf_mul_l. apply sumf_ext. intros l Hl. apply in_indices in Hl. rewrite VB by auto. f_equal.
      rewrite sumf_zero; [ring|]. intros f _. cbn [tzeros tat]. ring.
  Qed.
End Transposes.

(** The layer of C32's example. *)
Definition ex50_dY : tensor Zring := @mkt Zring [2; 4] (fun i => 1 + nth 0 i 0 - 2 * nth 1 i 0).
Definition ex50_dX : tensor Zring := @mkt Zring [2; 5] (fun i =>
  sumf (zrange 4) (fun o => rmul (tat ex50_dY [nth 0 i 0; o]) (tat ex32_W [o; nth 1 i 0]))).
Definition ex50_dW : tensor Zring := @mkt Zring [4; 5] (fun i =>
  sumf (zrange 2) (fun l => rmul (tat ex50_dY [l; nth 0 i 0]) (tat ex32_X [l; nth 1 i 0]))).
Definition ex50_db : tensor Zring := @mkt Zring [4] (fun i => sumf (zrange 2) (fun l => tat ex50_dY [l; nth 0 i 0])).
Definition ex50_dy (v : Z) : tensor Zring :=
  match index_in ex32_y v with Some idx => block (last_cut [2] 4 3) (piece [2] (nth 1 idx 0)) ex50_dY | None => @mkt Zring [2; 0] (fun _ => 0) end.

Example C50_example :
  is_linear_gradient [2] 5 4 ex32_X ex32_W ex50_dY ex50_dX ex50_dW ex50_db /\
  (forall j d, worker_at ex32_y [0; j] d -> teq (ex50_dy d) (block (last_cut [2] 4 3) (piece [2] j) ex50_dY)) /\
  (forall v, In v (p_ranks ex32_x) \/ In v (p_ranks ex32_w) -> ~ In v (p_ranks ex32_y) ->
     nonneg_shape (tshape (ex50_dy v)) /\ tshape (ex50_dy v) <> []) /\
  let dx := linear_backward ex32_x ex32_y ex32_w true false false (fun _ => 0) (fun _ => 0) (fun _ => true) (fun _ => true)
             ex32_weight ex32_bias ex32_in ex50_dy in
  let dw := linear_weight_gradient ex32_x ex32_y ex32_w true false false (fun _ => 0) (fun _ => 0) (fun _ => true) (fun _ => true)
             ex32_weight ex32_bias ex32_in ex50_dy in
  let db := linear_bias_gradient ex32_x ex32_y ex32_w true false false (fun _ => 0) (fun _ => 0) (fun _ => true) (fun _ => true)
             ex32_weight ex32_bias ex32_in ex50_dy in
  map (tat (val (dx 1))) (indices [2; 2]) = [-2190; -2466; -1620; -1808] /\
  map (fun i => tat ex50_dX i) [[0; 3]; [0; 4]; [1; 3]; [1; 4]] = [-2190; -2466; -1620; -1808] /\
  tshape (val (dw 6)) = [1; 2] /\ tat (val (dw 6)) [0; 1] = tat ex50_dW [3; 4] /\
  tshape (val (dx 7)) = [2; 0] /\ db 6 = None /\
  match db 3 with Some (Ok t) => tat t [0] = tat ex50_db [2] | _ => False end.
Proof.
  assert (K : part_ok ex32_y) by (split; [repeat (constructor; [simpl; lia|]); constructor|]; split; [discriminate|]; split; [repeat constructor|reflexivity]).
  split; [|split; [|split]].
  - repeat (split; [reflexivity|]). split; [|split].
    + intros l f Hl Hf. apply valid_index_cons_inv in Hl as (i & t & -> & Hi & Ht). apply valid_index_nil in Ht. subst t. reflexivity.
    + intros o f Ho Hf. vm_compute. reflexivity.
    + intros o Ho. reflexivity.
  - intros j d Hd. unfold ex50_dy. apply index_in_spec in Hd; auto. rewrite Hd. apply teq_refl.
  - intros v _ Hn. unfold ex50_dy. apply index_in_none in Hn. rewrite Hn. split; [repeat constructor; lia|discriminate].
  - cbv zeta. repeat split; vm_compute; reflexivity.
Qed.

Print Assumptions C50_linear_gradients.
Print Assumptions C50_gradient_formulas.
