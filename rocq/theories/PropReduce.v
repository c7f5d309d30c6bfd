(** Reductions and the linear layer in machine arithmetic: C61. *)

From Coq Require Import Sorting.Permutation.
From Verif Require Import Prelude SpecIndex SpecLayout SpecPartition ModelSlicing ModelDecomposition ModelPartition ProofSlicing
  ProofDecomposition ProofPartition PropPartition Ring Tensor ModelCollectives ProofCollectives PropCollectives Blocks ModelRepartition
  ProofRepartition ProofHaloMixin ModelLinear ProofWork PropLinear ModelWorkGrad ProofWorkGrad PropLinearGrad ModelReduce SpecSum ProofReduce.

(** SumReduce: the destination gets a sum of exactly its sources' values, each
    once. *)
Definition C61_sum_reduce_statement : Prop :=
  forall Px Py (same ts td pb : bool) dt rg,
  rd_accepted Px Py ts td same ->
  exists dst : Z -> Z,
  (forall s, In s (p_ranks Px) -> In (dst s) (p_ranks Py)) /\
  (bc_flags Py ts td -> forall s d, In s (p_ranks Px) -> (paired Py Px td ts d s <-> d = dst s)) /\
  forall (R : CRing) (M : machine R) red (x : Z -> tensor R),
  adds M red -> shapes_ok Px Py pb x ->
  (forall s s', In s (p_ranks Px) -> In s' (p_ranks Px) -> dst s = dst s' -> tshape (x s) = tshape (x s')) ->
  let y := sum_reduce_layer_by red Px Py same ts td pb dt rg x in
  (forall d, In d (p_ranks Py) -> exists t, y d = Ok t /\
     (forall s, In s (p_ranks Px) -> dst s = d -> tshape t = tshape (x s)) /\
     forall i, evaluates M (map (fun s => Num (tat (x s) i)) (filter (fun s => dst s =? d) (p_ranks Px))) (tat t i)) /\
  (forall v, In v (p_ranks Px) -> ~ In v (p_ranks Py) -> zero_vol pb (batch_of (x v)) (y v)) /\
  (forall v, ~ In v (p_ranks Px) -> ~ In v (p_ranks Py) -> y v = Ok (x v)).

(** Broadcast: the gradient of a source is a sum of the gradients of exactly the
    workers that received its tensor. *)
Definition C61_broadcast_statement : Prop :=
  forall Px Py (same ts td pb : bool) dt rg,
  bc_accepted Px Py ts td same ->
  exists src : Z -> Z,
  (forall d, In d (p_ranks Py) -> In (src d) (p_ranks Px)) /\
  (bc_flags Px ts td -> forall d s, In d (p_ranks Py) -> (paired Px Py ts td s d <-> s = src d)) /\
  forall (R : CRing) (M : machine R) red (x dy : Z -> tensor R),
  adds M red -> shapes_ok Px Py pb x -> shapes_ok Px Py pb dy ->
  let y := broadcast_layer Px Py same ts td pb dt rg x in
  let dx := broadcast_layer_backward_by red Px Py same ts td pb dt rg x dy in
  (forall d, In d (p_ranks Py) -> tshape (dy d) = tshape (val (y d))) ->
  (forall d, In d (p_ranks Py) -> exists t, y d = Ok t /\ teq t (x (src d))) /\
  (forall s, In s (p_ranks Px) -> exists t, dx s = Ok t /\ tshape t = tshape (x s) /\
     forall i, evaluates M (map (fun d => Num (tat (dy d) i)) (filter (fun d => src d =? s) (p_ranks Py))) (tat t i)) /\
  (forall v, ~ In v (p_ranks Px) -> In v (p_ranks Py) -> zero_vol pb (batch_of (dy v)) (dx v)) /\
  (forall v, ~ In v (p_ranks Px) -> ~ In v (p_ranks Py) -> dx v = Ok (dy v)).

(** AllSumReduce, forward ([z = x]) and backward: every worker gets a sum over the
    workers that agree with it on the kept axes.  Two of these get the same, bit for
    bit, if the reduction serves all its members alike. *)
Definition C61_all_sum_reduce_statement : Prop :=
  forall (R : CRing) (M : machine R) red P ar ak (x z : Z -> tensor R),
  adds M red -> part_ok P -> axes_given (length (p_shape P)) ar ak ->
  (forall u v, reduced_with P ar ak u v -> tshape (x u) = tshape (x v)) ->
  (forall v, In v (p_ranks P) -> tshape (z v) = tshape (x v)) ->
  let y := all_sum_reduce_layer_by red P ar ak x z in
  (forall v, In v (p_ranks P) -> exists t, y v = Ok t /\ tshape t = tshape (x v) /\
     forall g i, NoDup g -> (forall u, In u g <-> reduced_with P ar ak v u) ->
     evaluates M (map (fun u => Num (tat (z u) i)) g) (tat t i)) /\
  (forall v, ~ In v (p_ranks P) -> y v = Ok (z v)) /\
  (forall u v, reduced_with P ar ak u v -> (forall g l i, red u g l i = red v g l i) ->
     exists t t', y u = Ok t /\ y v = Ok t' /\ teq t t').

(** In exact arithmetic a sum has one value. *)
Definition C61_exact_statement : Prop :=
  forall (R : CRing) (l : list (term R)) (r : R), evaluates (exact_machine R) l r <-> r = sumf l exact_term.

(** The linear layer: the workers hold the blocks of one possible output of the
    sequential layer, and of one possible gradient. *)
Definition C61_linear_statement : Prop :=
  forall (R : CRing) (M : machine R) red torch back_x back_w back_b
    (Px Py Pw : part) (fi fo : Z) (same_xw same_wy : bool) dt dt' rg rg'
    (lead : list Z) (n_in n_out : Z) (X W : tensor R) (b : option (tensor R)) (weight bias x : Z -> tensor R),
  adds M red -> torch_linear_by M torch ->
  linear_partitions Px Py Pw fi fo same_xw same_wy ->
  linear_arguments lead n_in n_out X W b ->
  (* the input, the weight and the bias are held in blocks *)
  (forall i v, worker_at Px [0; i] v -> teq (x v) (block (last_cut lead n_in fi) (piece lead i) X)) ->
  (forall idx v, worker_at Pw idx v -> teq (weight v) (block (balanced [n_out; n_in] [fo; fi]) idx W)) ->
  match b with
  | Some b => forall j v, worker_at Pw [j; 0] v -> teq (bias v) (block (balanced [n_out] [fo]) [j] b)
  | None => True
  end ->
  (* other workers pass any tensor with a dimension *)
  (forall v, In v (p_ranks Pw) \/ In v (p_ranks Py) -> ~ In v (p_ranks Px) -> nonneg_shape (tshape (x v)) /\ tshape (x v) <> []) ->
  let use_bias := match b with Some _ => true | None => false end in
  let y := linear_forward_by red torch Px Py Pw use_bias same_xw same_wy dt dt' rg rg' weight bias x in
  (exists Y, linear_by M lead n_in n_out X W b Y /\
     forall j d, worker_at Py [0; j] d -> exists t, y d = Ok t /\ teq t (block (last_cut lead n_out fo) (piece lead j) Y)) /\
  (forall v, In v (p_ranks Px) \/ In v (p_ranks Pw) -> ~ In v (p_ranks Py) -> exists t n, y v = Ok t /\ tshape t = [n; 0] /\ 0 <= n) /\
  (forall v, ~ In v (p_ranks Px) -> ~ In v (p_ranks Pw) -> ~ In v (p_ranks Py) -> y v = Ok (x v)) /\
  (* backward *)
  forall (dY : tensor R) (dy : Z -> tensor R),
  torch_linear_back_by M back_x back_w back_b ->
  tshape dY = lead ++ [n_out] ->
  (forall j d, worker_at Py [0; j] d -> teq (dy d) (block (last_cut lead n_out fo) (piece lead j) dY)) ->
  (forall v, In v (p_ranks Px) \/ In v (p_ranks Pw) -> ~ In v (p_ranks Py) -> nonneg_shape (tshape (dy v)) /\ tshape (dy v) <> []) ->
  let dx := linear_backward_by red torch back_x Px Py Pw use_bias same_xw same_wy dt dt' rg rg' weight bias x dy in
  let dweight := linear_weight_gradient_by torch back_w Px Py Pw use_bias same_xw same_wy dt dt' rg rg' weight bias x dy in
  let dbias := linear_bias_gradient_by torch back_b Px Py Pw use_bias same_xw same_wy dt dt' rg rg' weight bias x dy in
  (exists dX, input_gradient_by M lead n_in n_out W dY dX /\
     forall i s, worker_at Px [0; i] s -> exists t, dx s = Ok t /\ teq t (block (last_cut lead n_in fi) (piece lead i) dX)) /\
  (exists dW, weight_gradient_by M lead n_in n_out X dY dW /\
     forall idx u, worker_at Pw idx u -> exists t, dweight u = Ok t /\ teq t (block (balanced [n_out; n_in] [fo; fi]) idx dW)) /\
  (b <> None -> exists db, bias_gradient_by M lead n_out dY db /\
     forall j u, worker_at Pw [j; 0] u -> exists t, dbias u = Some (Ok t) /\ teq t (block (balanced [n_out] [fo]) [j] db)) /\
  (forall j i u, worker_at Pw [j; i] u -> i <> 0 -> dbias u = None) /\
  (forall v, In v (p_ranks Pw) \/ In v (p_ranks Py) -> ~ In v (p_ranks Px) -> exists t n, dx v = Ok t /\ tshape t = [n; 0]) /\
  (forall v, ~ In v (p_ranks Px) -> ~ In v (p_ranks Pw) -> ~ In v (p_ranks Py) -> dx v = Ok (dy v)).

Lemma C61_sum_reduce_proof : C61_sum_reduce_statement.
Proof.
  intros Px Py same ts td pb dt rg HA. pose proof HA as (H1 & H2 & HR & HC & HS). exists (csrc Py Px td ts).
  split; [|split].
  - intros s Hs. now apply csrc_spec.
  - intros HF s d Hs. apply csrc_paired; auto using amo_either.
  - intros R M red x HM HX Heq y. split; [|split].
    + intros d Hd. exact (sum_reduce_dest_by M red HM Px Py same ts td pb dt rg x d HA HX Heq Hd).
    + intros v Hv Hn. now apply (sum_reduce_other_by red Px Py same ts td pb dt rg x v HA HX).
    + intros v Hv Hn. unfold y, sum_reduce_layer_by, layer_forward.
      destruct (is_identity same Px ts td v) eqn:I; [reflexivity|]. now rewrite inactive_or.
Qed.

Lemma C61_broadcast_proof : C61_broadcast_statement.
Proof.
  intros Px Py same ts td pb dt rg HA. pose proof HA as (H1 & H2 & HR & HC & HS). exists (csrc Px Py ts td).
  split; [|split].
  - intros s Hs. now apply csrc_spec.
  - intros HF d s Hd. apply csrc_paired; auto.
  - intros R M red x dy HM HX HDY y dx Hsh.
    assert (Hy : forall d, In d (p_ranks Py) -> exists t, y d = Ok t /\ teq t (x (csrc Px Py ts td d))).
    { intros d Hd. exists (x (csrc Px Py ts td d)). split; [now apply broadcast_layer_dest|apply teq_refl]. }
    assert (Sd : forall d, In d (p_ranks Py) -> tshape (dy d) = tshape (x (csrc Px Py ts td d))).
    { intros d Hd. rewrite Hsh by auto. destruct (Hy d Hd) as (t & -> & T). apply T. }
    split; [exact Hy|]. split; [|split].
    + intros s Hs. exact (broadcast_source_by M red HM Px Py same ts td pb dt rg x dy s HA HX HDY Sd Hs).
    + intros v Hn Hv. unfold dx, broadcast_layer_backward_by, layer_backward.
      destruct (is_identity same Px ts td v) eqn:I; [apply identity_active in I; contradiction|].
      rewrite active_or by auto. destruct (runs_ok Px Py ts td H1 H2 HR HC v) as [c ->]. cbn [rbind].
      rewrite (broadcast_backward_none_by red _ _ _ _ _ (broadcast_cross_wf Px Py ts td H1 H2 HR HC)) by auto.
      apply zero_volume_ok. now apply HDY; auto.
    + intros v Hn Hv. unfold dx, broadcast_layer_backward_by, layer_backward.
      destruct (is_identity same Px ts td v) eqn:I; [reflexivity|]. now rewrite inactive_or.
Qed.

Lemma C61_all_sum_reduce_proof : C61_all_sum_reduce_statement.
Proof.
  intros R M red P ar ak x z HM HP Hax Hx Hz y. split; [|split].
  - intros v Hv. destruct (all_sum_value_by M red HM P ar ak x z v HP Hax Hx Hz Hv) as (t & E & S & V & _).
    exists t. split; [exact E|]. split; [exact S|]. intros g i Hn Hg. eapply ev_order; [|apply V].
    unfold nums. apply Permutation_map, NoDup_Permutation; auto.
    + now apply (ar_list_spec P ar ak HP Hax v Hv).
    + intros u. rewrite Hg. now apply (ar_list_spec P ar ak HP Hax v Hv).
  - intros v Hv. unfold y, all_sum_reduce_layer_by. destruct (axes_resolved _ _ _ Hax) as (axes & -> & _). cbn [rbind].
    apply is_active_false in Hv. now rewrite Hv.
  - intros u v Huv Hr. pose proof Huv as (a & c & Ha & Hc & _). apply worker_at_In in Ha, Hc.
    destruct (all_sum_value_by M red HM P ar ak x z u HP Hax Hx Hz Ha) as (t & E & S & _ & V).
    destruct (all_sum_value_by M red HM P ar ak x z v HP Hax Hx Hz Hc) as (t' & E' & S' & _ & V').
    exists t, t'. split; [exact E|]. split; [exact E'|].
    destruct (Nat.eq_dec (length (p_ranks P)) 1) as [E1|E1].
    + assert (Euv : u = v).
      { destruct (p_ranks P) as [|w [|w' l]]; cbn in E1; try lia. destruct Ha as [Ha|[]], Hc as [Hc|[]]. congruence. }
      subst v. unfold y in E'. rewrite E in E'. injection E' as <-. apply teq_refl.
    + assert (EL : ar_list P ar ak v = ar_list P ar ak u).
      { destruct (ar_list_spec P ar ak HP Hax u Ha) as (_ & HMm & HE). apply HE. now apply HMm. }
      split; [rewrite S, S'; now apply Hx|]. intros i _. rewrite V, V', EL by auto. apply Hr.
Qed.

Lemma C61_exact_proof : C61_exact_statement.
Proof. intros R l r. split; [apply evaluates_exact|]. intros ->. apply exact_evaluates. Qed.

(** ** Pieces *)

(** A tensor from its blocks, with what is known of their elements. *)
Lemma assemble {R : CRing} (L : layout) (T : list Z -> tensor R) (K : list Z -> R -> Prop) : layout_ok L ->
  (forall idx, valid_index (layout_workers L) idx -> tshape (T idx) = block_shape L idx /\
     forall p, valid_index (block_shape L idx) p -> K (vadd (block_lo L idx) p) (tat (T idx) p)) ->
  exists Y, tshape Y = layout_shape L /\ (forall idx, valid_index (layout_workers L) idx -> teq (T idx) (block L idx Y)) /\
    forall g, valid_index (layout_shape L) g -> K g (tat Y g).
Proof.
  intros HL HT. exists (glue L T). split; [reflexivity|]. split.
  - intros idx Hi. destruct (HT idx Hi) as [S _]. now apply glue_block.
  - intros g Hg. destruct (layout_tiles_exists _ _ HL Hg) as (idx & Hi & Hb). destruct (local_point L idx g Hi Hb) as [Hp E].
    cbn [glue tat]. rewrite (owner_unique L HL g idx Hi Hb). rewrite <- E at 1. now apply HT.
Qed.

Lemma last_cut_ok lead n P : nonneg_shape lead -> 0 < P -> 0 <= n -> layout_ok (last_cut lead n P).
Proof.
  intros Hl HP Hn. apply Forall_app. split.
  - apply Forall_forall. intros e He. apply in_map_iff in He as (m & <- & Hm). constructor; [|constructor]. exact (proj1 (Forall_forall _ _) Hl m Hm).
  - constructor; [|constructor]. assert (Bo := balanced_ok [n] [P]). unfold balanced in Bo. cbn [map2] in Bo.
    assert (K : layout_ok [balanced1 n P]) by (apply Bo; repeat constructor; auto). now inversion K.
Qed.
Lemma last_cut_extents lead n P : 0 < P -> 0 <= n -> layout_shape (last_cut lead n P) = lead ++ [n].
Proof.
  intros HP Hn. unfold layout_shape, last_cut. rewrite map_app, map_map. f_equal.
  - induction lead as [|m lead IH]; [reflexivity|]. cbn [map]. rewrite IH. f_equal. cbn. lia.
  - pose proof (balanced_shape [n] [P] ltac:(repeat constructor; auto) ltac:(repeat constructor; auto) eq_refl) as E.
    unfold layout_shape, balanced in E. cbn [map2 map] in E. exact E.
Qed.
Lemma last_cut_workers lead n P : 0 < P -> layout_workers (last_cut lead n P) = map (fun _ => 1) lead ++ [P].
Proof.
  intros HP. unfold layout_workers, last_cut. rewrite map_app, map_map. cbn [length map]. f_equal. rewrite balanced1_length. f_equal. lia.
Qed.
Lemma piece_valid lead n P i : 0 < P -> 0 <= i < P -> valid_index (layout_workers (last_cut lead n P)) (piece lead i).
Proof.
  intros HP Hi. rewrite last_cut_workers by auto. apply valid_snoc. exists (map (fun _ => 0) lead), i. split; [reflexivity|]. split; [|auto].
  induction lead as [|m lead IH]; constructor; auto. lia.
Qed.
Lemma piece_of lead n P idx : 0 < P -> valid_index (layout_workers (last_cut lead n P)) idx -> exists i, idx = piece lead i /\ 0 <= i < P.
Proof.
  intros HP H. rewrite last_cut_workers in H by auto. apply valid_snoc in H as (l & i & -> & Hl & Hi). exists i. split; auto. unfold piece. f_equal.
  revert l Hl. induction lead as [|m lead IH]; intros l Hl; inversion Hl; subst; [reflexivity|]. cbn [map]. f_equal; [lia|auto].
Qed.
Lemma last_cut_point lead n P i l f : 0 < P -> 0 <= i < P -> length l = length lead ->
  vadd (block_lo (last_cut lead n P) (piece lead i)) (l ++ [f]) = l ++ [start1 P i n + f].
Proof.
  intros HP Hi Hl. rewrite last_cut_lo by auto. unfold vadd. rewrite map2_app by (rewrite map_length; auto). cbn [map2]. f_equal. now apply zero_add.
Qed.
Lemma piece_last lead i : last (piece lead i) 0 = i.
Proof. apply last_last. Qed.

Lemma last_range P k n m : 0 < P -> 0 <= n -> 0 <= k < P -> 0 <= m < subshape1 P k n -> 0 <= start1 P k n + m < n.
Proof.
  intros HPp Hn Hk Hm. pose proof (start1_mono P 0 k n HPp Hn ltac:(lia)) as A. rewrite start1_0 in A by auto.
  pose proof (start1_mono P (k + 1) P n HPp Hn ltac:(lia)) as B. rewrite start1_P, start1_step in B by lia. lia.
Qed.

(** Listing over the pieces is listing over the whole. *)
Lemma balanced_flat {A} (P n : Z) (F : Z -> A) : 0 < P -> 0 <= n ->
  flat_map (fun i => map (fun f => F (start1 P i n + f)) (zrange (subshape1 P i n))) (zrange P) = map F (zrange n).
Proof.
  intros HP Hn.
  enough (E : forall m, 0 <= m -> m <= P ->
    flat_map (fun i => map (fun f => F (start1 P i n + f)) (zrange (subshape1 P i n))) (zrange m) = map F (zrange (start1 P m n))).
  { rewrite E by lia. now rewrite start1_P. }
  apply (natlike_ind (fun m => m <= P -> flat_map (fun i => map (fun f => F (start1 P i n + f)) (zrange (subshape1 P i n))) (zrange m)
                                        = map F (zrange (start1 P m n)))).
  - intros _. now rewrite start1_0.
  - intros m Hm IH Hle. unfold Z.succ. rewrite zrange_succ, flat_map_app, IH by lia. rewrite start1_step by lia.
    rewrite zrange_app; [|rewrite <- (start1_0 P n HP); apply start1_mono; lia|now apply subshape1_nonneg].
    rewrite map_app, map_map. cbn [flat_map]. now rewrite app_nil_r.
Qed.

Lemma flat_map_split {A B} (f g : A -> list B) l : Permutation (flat_map (fun a => f a ++ g a) l) (flat_map f l ++ flat_map g l).
Proof.
  induction l as [|a l IH]; [constructor|]. cbn [flat_map]. rewrite IH, <- !app_assoc. apply Permutation_app_head.
  rewrite !app_assoc. apply Permutation_app_tail. apply Permutation_app_comm.
Qed.

(** Evaluating in parts. *)
Lemma evaluates_parts {R : CRing} (M : machine R) {A} (l : list A) (ts : A -> list (term R)) (vs : A -> R) r :
  (forall a, In a l -> evaluates M (ts a) (vs a)) -> evaluates M (map (fun a => Num (vs a)) l) r -> evaluates M (flat_map ts l) r.
Proof.
  intros H1 H2. pose proof (evaluates_concat M (map (fun a => (ts a, vs a)) l) r) as K. rewrite !map_map in K. cbn [fst snd] in K.
  rewrite flat_map_concat_map. apply K; auto. intros p Hp. apply in_map_iff in Hp as (a & <- & Ha). now apply H1.
Qed.

Section Linear.
  Context {R : CRing}.
  Variables (M : machine R) (red : Z -> list Z -> list R -> list Z -> R).
  Variable torch : Z -> tensor R -> option (tensor R) -> tensor R -> result (tensor R).
  Variables (Px Py Pw : part) (fi fo : Z) (same_xw same_wy : bool) (dt dt' : Z -> Z) (rg rg' : Z -> bool).
  Variables (lead : list Z) (n_in n_out : Z) (X W : tensor R) (b : option (tensor R)) (weight bias x : Z -> tensor R).
  Hypothesis HM : adds M red.
  Hypothesis HT : torch_linear_by M torch.
  Hypothesis HP : linear_partitions Px Py Pw fi fo same_xw same_wy.
  Hypothesis HA : linear_arguments lead n_in n_out X W b.
  Hypothesis Hx : forall i v, worker_at Px [0; i] v -> teq (x v) (block (last_cut lead n_in fi) (piece lead i) X).
  Hypothesis Hw : forall idx v, worker_at Pw idx v -> teq (weight v) (block (balanced [n_out; n_in] [fo; fi]) idx W).
  Hypothesis Hb : match b with
    | Some b => forall j v, worker_at Pw [j; 0] v -> teq (bias v) (block (balanced [n_out] [fo]) [j] b)
    | None => True
    end.
  Hypothesis Ho : forall v, In v (p_ranks Pw) \/ In v (p_ranks Py) -> ~ In v (p_ranks Px) -> nonneg_shape (tshape (x v)) /\ tshape (x v) <> [].

  Let use_bias := match b with Some _ => true | None => false end.
  Let sub := sublinear_by torch Pw use_bias weight bias.
  Let Pi : 0 < fi := l_fi Px Py Pw fi fo same_xw same_wy HP.
  Let Po : 0 < fo := l_fo Px Py Pw fi fo same_xw same_wy HP.

  Lemma r_parts : part_ok Px /\ part_ok Py /\ part_ok Pw.
  Proof. split; [|split]; apply HP. Qed.
  Lemma r_sizes : nonneg_shape lead /\ 0 <= n_in /\ 0 <= n_out.
  Proof. now destruct HA as (_ & _ & _ & H). Qed.

  Lemma r_w u : In u (p_ranks Pw) -> exists j i, worker_at Pw [j; i] u /\ 0 <= j < fo /\ 0 <= i < fi.
  Proof.
    intros Hu. destruct (worker_at_exists Pw u (proj2 (proj2 r_parts)) Hu) as [idx Hi].
    destruct (pw_index _ _ _ _ _ _ _ HP idx (proj1 Hi)) as (j & i & -> & Hj & Hi'). eauto.
  Qed.
  Lemma r_x v : In v (p_ranks Px) -> exists i, worker_at Px [0; i] v /\ 0 <= i < fi.
  Proof.
    intros Hv. destruct (worker_at_exists Px v (proj1 r_parts) Hv) as [idx Hi].
    destruct (px_index _ _ _ _ _ _ _ HP idx (proj1 Hi)) as (i & -> & Hi'). eauto.
  Qed.
  Lemma r_y v : In v (p_ranks Py) -> exists j, worker_at Py [0; j] v /\ 0 <= j < fo.
  Proof.
    intros Hv. destruct (worker_at_exists Py v (proj1 (proj2 r_parts)) Hv) as [idx Hi].
    destruct (py_index _ _ _ _ _ _ _ HP idx (proj1 Hi)) as (i & -> & Hi'). eauto.
  Qed.
  Lemma r_nonneg n P k : 0 < P -> 0 <= n -> nonneg_shape (lead ++ [subshape1 P k n]) /\ lead ++ [subshape1 P k n] <> [].
  Proof.
    intros HPp Hn. split.
    - apply Forall_app. split; [apply r_sizes|]. constructor; [now apply subshape1_nonneg|constructor].
    - intros E. destruct lead; discriminate.
  Qed.
  Lemma r_input v : In v (p_ranks Px) \/ In v (p_ranks Pw) \/ In v (p_ranks Py) -> nonneg_shape (tshape (x v)) /\ tshape (x v) <> [].
  Proof.
    intros Hv. destruct (in_dec Z.eq_dec v (p_ranks Px)) as [Hin|Hin]; [|apply Ho; tauto].
    destruct (r_x v Hin) as (i & Hi & Hi'). destruct (Hx i v Hi) as [E _]. rewrite E. cbn [block tshape]. rewrite last_cut_shape by auto.
    apply r_nonneg; [exact Pi|apply r_sizes].
  Qed.

  (** The terms that worker (j, i) adds. *)
  Definition part_terms (j i : Z) (l : list Z) (o : Z) : list (term R) :=
    map (fun f => Prod (tat X (l ++ [start1 fi i n_in + f])) (tat W [start1 fo j n_out + o; start1 fi i n_in + f])) (zrange (subshape1 fi i n_in)) ++
    (if i =? 0 then match b with Some b => [Num (tat b [start1 fo j n_out + o])] | None => [] end else []).
  Definition r_good (u : Z) (t : tensor R) : Prop :=
    forall j i l o, worker_at Pw [j; i] u -> valid_index lead l -> 0 <= o < subshape1 fo j n_out -> evaluates M (part_terms j i l o) (tat t (l ++ [o])).
  Definition r_shape (u : Z) : list Z :=
    match index_in Pw u with Some idx => lead ++ [subshape1 fo (nth 0 idx 0) n_out] | None => [] end.
  Lemma r_shape_at j i u : worker_at Pw [j; i] u -> r_shape u = lead ++ [subshape1 fo j n_out].
  Proof. intros Hu. unfold r_shape. apply index_in_spec in Hu; [|apply r_parts]. now rewrite Hu. Qed.

  Lemma r_bias j u : worker_at Pw [j; 0] u -> forall b0, b = Some b0 -> tshape (bias u) = [subshape1 fo j n_out] /\
    forall o, 0 <= o < subshape1 fo j n_out -> tat (bias u) [o] = tat b0 [start1 fo j n_out + o].
  Proof.
    intros Hu b0 E. rewrite E in Hb. destruct (Hb j u Hu) as [Eb Vb].
    assert (Hj : 0 <= j < fo) by (apply (pw_valid Px Py Pw fi fo same_xw same_wy HP j 0), Hu).
    assert (Eb' : tshape (bias u) = [subshape1 fo j n_out]).
    { rewrite Eb. cbn [block tshape]. unfold block_shape, balanced. cbn [map2]. now rewrite balanced1_nth. }
    split; auto. intros o Hoo. rewrite Vb.
    - cbn [block tat]. unfold block_lo, balanced, vadd. cbn [map2]. now rewrite balanced1_prefix by lia.
    - rewrite Eb'. constructor; [auto|constructor].
  Qed.

  Lemma r_local s u t : paired Px Pw false false s u -> teq t (x s) ->
    exists t', sub u t = Ok t' /\ tshape t' = r_shape u /\ r_good u t'.
  Proof.
    intros Hp Ht. destruct (l_source _ _ _ _ _ _ _ HP s u Hp) as (j & i & Hu & Hs & Hj & Hi).
    destruct (g_t Px Py Pw fi fo same_xw same_wy HP lead n_in X x Hx s u t j i Hu Hs Ht) as [St Vt].
    destruct (g_w Px Py Pw fi fo same_xw same_wy HP n_in n_out W weight Hw u j i Hu) as [Sw Vw].
    destruct r_sizes as (NL & N1 & N2). pose proof (r_shape_at j i u Hu) as Sh.
    unfold sub, sublinear_by. pose proof Hu as Ei. apply index_in_spec in Ei; [|apply r_parts]. rewrite Ei.
    assert (RB : i = 0 -> forall b0, b = Some b0 -> tshape (bias u) = [subshape1 fo j n_out] /\
      forall o, 0 <= o < subshape1 fo j n_out -> tat (bias u) [o] = tat b0 [start1 fo j n_out + o]).
    { intros E0. apply r_bias. now rewrite <- E0. }
    set (bo := if sublinear_bias use_bias [j; i] then Some (bias u) else None).
    destruct (HT u lead (subshape1 fi i n_in) (subshape1 fo j n_out) t (weight u) bo) as (t' & E & S' & V').
    { split; [exact St|]. split; [exact Sw|]. split; [|split; [exact NL|split; now apply subshape1_nonneg]].
      unfold bo, sublinear_bias, use_bias. cbn [last]. destruct (Z.eqb_spec i 0) as [->|Ne]; [|exact I].
      destruct b as [b0|]; [|exact I]. now apply (RB eq_refl b0). }
    exists t'. split; [exact E|]. split; [now rewrite Sh|]. intros j' i' l o Hu' Hl Hoo.
    pose proof (worker_at_fun Pw _ _ u (proj2 (proj2 r_parts)) Hu Hu') as Eq. inversion Eq; subst j' i'.
    specialize (V' l o Hl Hoo). replace (part_terms j i l o) with (linear_terms (subshape1 fi i n_in) t (weight u) bo l o); auto.
    unfold linear_terms, part_terms. f_equal.
    - apply map_ext_in. intros f Hf. apply in_zrange in Hf. now rewrite Vt, Vw by auto.
    - unfold bo, sublinear_bias, use_bias. cbn [last]. destruct (Z.eqb_spec i 0) as [->|Ne]; [|reflexivity].
      destruct b as [b0|]; [|reflexivity]. destruct (RB eq_refl b0 eq_refl) as [_ Vb]. now rewrite Vb.
  Qed.

  Lemma r_terms j l o : 0 <= j < fo -> Permutation (flat_map (fun i => part_terms j i l o) (zrange fi)) (linear_terms n_in X W b l (start1 fo j n_out + o)).
  Proof.
    intros Hj. unfold part_terms, linear_terms. rewrite flat_map_split. apply Permutation_app.
    - rewrite (balanced_flat fi n_in (fun f => Prod (tat X (l ++ [f])) (tat W [start1 fo j n_out + o; f]))); auto. apply r_sizes.
    - replace (zrange fi) with (0 :: map (fun k => 1 + k) (zrange (fi - 1))).
      + cbn [flat_map]. rewrite Z.eqb_refl. rewrite <- app_nil_r. apply Permutation_app_head.
        replace (flat_map _ _) with (@nil (term R)); [constructor|]. symmetry. rewrite flat_map_concat_map, map_map.
        assert (K : forall m : list Z, (forall k, In k m -> 0 <= k) ->
          concat (map (fun k => if 1 + k =? 0 then match b with Some b0 => [Num (tat b0 [start1 fo j n_out + o])] | None => [] end else []) m) = []).
        { induction m as [|k m IH]; intros Hk; [reflexivity|]. cbn [map concat]. rewrite IH by (intros; apply Hk; now right).
          specialize (Hk k (or_introl eq_refl)). now destruct (Z.eqb_spec (1 + k) 0); [lia|]. }
        apply K. intros k Hk. apply in_zrange in Hk. lia.
      + replace fi with (1 + (fi - 1)) at 2 by lia. rewrite zrange_app by lia. reflexivity.
  Qed.

  Let y := linear_forward_by red torch Px Py Pw use_bias same_xw same_wy dt dt' rg rg' weight bias x.

  Lemma r_out_positive u : In u (p_ranks Pw) -> nonneg_shape (r_shape u) /\ r_shape u <> [].
  Proof. intros Hu. destruct (r_w u Hu) as (j & i & Hu' & Hj & Hi). rewrite (r_shape_at j i u Hu'). apply r_nonneg; [exact Po|apply r_sizes]. Qed.
  Lemma r_out_alike d u u' : paired Py Pw false true d u -> paired Py Pw false true d u' -> r_shape u = r_shape u'.
  Proof.
    intros Hu Hu'. apply (l_destination _ _ _ _ _ _ _ HP) in Hu as (j & i & Hu & Hd), Hu' as (j' & i' & Hu' & Hd').
    rewrite (r_shape_at _ _ _ Hu), (r_shape_at _ _ _ Hu'). pose proof (worker_at_fun Py _ _ d (proj1 (proj2 r_parts)) Hd Hd') as E. inversion E. reflexivity.
  Qed.

  Lemma r_forward :
    (exists Y, linear_by M lead n_in n_out X W b Y /\
       forall j d, worker_at Py [0; j] d -> exists t, y d = Ok t /\ teq t (block (last_cut lead n_out fo) (piece lead j) Y)) /\
    (forall v, In v (p_ranks Px) \/ In v (p_ranks Pw) -> ~ In v (p_ranks Py) -> exists t n, y v = Ok t /\ tshape t = [n; 0] /\ 0 <= n) /\
    (forall v, ~ In v (p_ranks Px) -> ~ In v (p_ranks Pw) -> ~ In v (p_ranks Py) -> y v = Ok (x v)).
  Proof.
    destruct r_parts as (H1 & H2 & H3). destruct r_sizes as (NL & N1 & N2).
    destruct (work_sum_by M red HM Px Pw Py same_xw same_wy true dt dt' rg rg' sub x r_shape r_good
              (l_bc _ _ _ _ _ _ _ HP) (l_rd _ _ _ _ _ _ _ HP) (l_flags _ _ _ _ _ _ _ HP) r_input r_local r_out_positive r_out_alike) as (A & B & C).
    split; [|split; [exact B|exact C]].
    assert (Vy : forall j, 0 <= j < fo -> worker_at Py [0; j] (wk Py [0; j])).
    { intros j Hj. apply wk_worker; auto. assert (Ey : p_shape Py = [1; fo]) by apply HP. rewrite Ey. repeat (apply valid_index_cons; split; [lia|]). constructor. }
    assert (Hel : forall j d, 0 <= j < fo -> worker_at Py [0; j] d -> exists t, y d = Ok t /\ tshape t = lead ++ [subshape1 fo j n_out] /\
      forall l o, valid_index lead l -> 0 <= o < subshape1 fo j n_out -> evaluates M (linear_terms n_in X W b l (start1 fo j n_out + o)) (tat t (l ++ [o]))).
    { intros j d Hj Hd. destruct (A d _ (worker_at_In _ _ _ Hd) (l_contributors _ _ _ _ _ _ _ HP j d Hd)) as (t & z & E & T1 & T2).
      assert (Wk : forall i, 0 <= i < fi -> worker_at Pw [j; i] (wk Pw [j; i])).
      { intros i Hi. apply wk_worker; auto. now apply (pw_valid _ _ _ _ _ _ _ HP). }
      assert (In1 : forall i, 0 <= i < fi -> In (wk Pw [j; i]) (map (fun i => wk Pw [j; i]) (zrange fi))).
      { intros i Hi. apply in_map_iff. exists i. split; auto. now apply in_zrange. }
      exists t. split; [exact E|]. split.
      - destruct (T1 _ (In1 0 ltac:(lia))) as [-> _]. apply (r_shape_at j 0). apply Wk. lia.
      - intros l o Hl Hoo. eapply ev_order; [apply (r_terms j l o Hj)|].
        apply (evaluates_parts M (zrange fi) (fun i => part_terms j i l o) (fun i => tat (z (wk Pw [j; i])) (l ++ [o]))).
        + intros i Hi. apply in_zrange in Hi. destruct (T1 _ (In1 i Hi)) as (_ & _ & Gd). apply Gd; auto.
        + specialize (T2 (l ++ [o])). unfold nums in T2. rewrite map_map in T2. exact T2. }
    destruct (assemble (last_cut lead n_out fo) (fun idx => val (y (wk Py [0; last idx 0])))
      (fun g r => evaluates M (linear_terms n_in X W b (removelast g) (last g 0)) r)) as (Y & SY & BY & VY).
    { now apply last_cut_ok. }
    { intros idx Hi. destruct (piece_of lead n_out fo idx Po Hi) as (j & -> & Hj). rewrite piece_last.
      destruct (Hel j _ Hj (Vy j Hj)) as (t & -> & St & Vt). cbn [val]. rewrite last_cut_shape by auto. split; [exact St|].
      intros p Hp. apply valid_snoc in Hp as (l & o & -> & Hl & Hoo). rewrite last_cut_point by (auto; now apply valid_index_length in Hl).
      rewrite removelast_last, last_last. now apply Vt. }
    exists Y. rewrite last_cut_extents in SY, VY by auto. split; [split; [exact SY|]|].
    - intros l o Hl Hoo. specialize (VY (l ++ [o])). rewrite removelast_last, last_last in VY. apply VY. apply valid_snoc. eauto.
    - intros j d Hd. assert (Hj : 0 <= j < fo).
      { destruct (py_index _ _ _ _ _ _ _ HP _ (proj1 Hd)) as (j' & Ej & Hj). inversion Ej. auto. }
      destruct (Hel j d Hj Hd) as (t & E & _). exists t. split; [exact E|].
      specialize (BY _ (piece_valid lead n_out fo j Po Hj)). cbv beta in BY. rewrite piece_last, (worker_wk _ _ _ Hd), E in BY. exact BY.
  Qed.

  (** *** Backward *)
  Variables back_x back_w back_b : Z -> tensor R -> tensor R -> tensor R -> result (tensor R).
  Variables (dY : tensor R) (dy : Z -> tensor R).
  Hypothesis HB : torch_linear_back_by M back_x back_w back_b.
  Hypothesis HdY : tshape dY = lead ++ [n_out].
  Hypothesis Hdy : forall j d, worker_at Py [0; j] d -> teq (dy d) (block (last_cut lead n_out fo) (piece lead j) dY).
  Hypothesis Hody : forall v, In v (p_ranks Px) \/ In v (p_ranks Pw) -> ~ In v (p_ranks Py) -> nonneg_shape (tshape (dy v)) /\ tshape (dy v) <> [].

  Lemma r_cotangent v : In v (p_ranks Px) \/ In v (p_ranks Pw) \/ In v (p_ranks Py) -> nonneg_shape (tshape (dy v)) /\ tshape (dy v) <> [].
  Proof.
    intros Hv. destruct (in_dec Z.eq_dec v (p_ranks Py)) as [Hin|Hin]; [|apply Hody; tauto].
    destruct (r_y v Hin) as (i & Hi & Hi'). destruct (Hdy i v Hi) as [E _]. rewrite E. cbn [block tshape]. rewrite last_cut_shape by auto.
    apply r_nonneg; [exact Po|apply r_sizes].
  Qed.
  Lemma r_cotangent_shape d u : paired Py Pw false true d u -> tshape (dy d) = r_shape u.
  Proof.
    intros Hu. apply (l_destination _ _ _ _ _ _ _ HP) in Hu as (j & i & Hu & Hd'). rewrite (r_shape_at _ _ _ Hu).
    destruct (Hdy j d Hd') as [-> _]. apply last_cut_shape. apply (pw_valid Px Py Pw fi fo same_xw same_wy HP j i), Hu.
  Qed.
  Lemma r_some d : In d (p_ranks Py) -> exists u, paired Py Pw false true d u.
  Proof.
    intros Hin. destruct (r_y d Hin) as (j & Hj & Hj'). exists (wk Pw [j; 0]). apply (l_destination _ _ _ _ _ _ _ HP).
    exists j, 0. split; auto. apply wk_worker; [apply r_parts|]. apply (pw_valid _ _ _ _ _ _ _ HP). lia.
  Qed.

  (** What the backward of the layer of worker (j, i) has. *)
  Lemma r_triple s u d t g : paired Px Pw false false s u -> teq t (x s) -> paired Py Pw false true d u -> teq g (dy d) ->
    exists j i, worker_at Pw [j; i] u /\ worker_at Px [0; i] s /\ 0 <= j < fo /\ 0 <= i < fi /\
      linear_arguments lead (subshape1 fi i n_in) (subshape1 fo j n_out) t (weight u) None /\ tshape g = lead ++ [subshape1 fo j n_out] /\
      (forall l f, valid_index lead l -> 0 <= f < subshape1 fi i n_in -> tat t (l ++ [f]) = tat X (l ++ [start1 fi i n_in + f])) /\
      (forall l o, valid_index lead l -> 0 <= o < subshape1 fo j n_out -> tat g (l ++ [o]) = tat dY (l ++ [start1 fo j n_out + o])) /\
      (forall o f, 0 <= o < subshape1 fo j n_out -> 0 <= f < subshape1 fi i n_in ->
        tat (weight u) [o; f] = tat W [start1 fo j n_out + o; start1 fi i n_in + f]).
  Proof.
    intros Hp Ht Hq Hg. destruct (l_source _ _ _ _ _ _ _ HP s u Hp) as (j & i & Hu & Hs & Hj & Hi).
    apply (l_destination _ _ _ _ _ _ _ HP) in Hq as (j' & i' & Hu' & Hd'). pose proof (worker_at_fun Pw _ _ u (proj2 (proj2 r_parts)) Hu Hu') as E.
    inversion E; subst j' i'.
    destruct (g_t Px Py Pw fi fo same_xw same_wy HP lead n_in X x Hx s u t j i Hu Hs Ht) as [St Vt].
    destruct (g_w Px Py Pw fi fo same_xw same_wy HP n_in n_out W weight Hw u j i Hu) as [Sw Vw].
    destruct (g_g Px Py Pw fi fo same_xw same_wy HP lead n_out dY dy Hdy u d g j i Hu Hd' Hg) as [Sg Vg].
    destruct r_sizes as (NL & N1 & N2).
    exists j, i. repeat (split; [assumption|]). split; [|auto]. split; [exact St|]. split; [exact Sw|]. split; [exact I|].
    split; [exact NL|]. split; now apply subshape1_nonneg.
  Qed.

  Definition back_terms (j i : Z) (l : list Z) (f : Z) : list (term R) :=
    map (fun o => Prod (tat dY (l ++ [start1 fo j n_out + o])) (tat W [start1 fo j n_out + o; start1 fi i n_in + f])) (zrange (subshape1 fo j n_out)).
  Definition r_good_back (u : Z) (t : tensor R) : Prop :=
    forall j i l f, worker_at Pw [j; i] u -> valid_index lead l -> 0 <= f < subshape1 fi i n_in -> evaluates M (back_terms j i l f) (tat t (l ++ [f])).

  Lemma r_back s u d t g : paired Px Pw false false s u -> teq t (x s) -> paired Py Pw false true d u -> teq g (dy d) ->
    exists t', back_x u (weight u) t g = Ok t' /\ tshape t' = tshape (x s) /\ r_good_back u t'.
  Proof.
    intros Hp Ht Hq Hg. destruct (r_triple s u d t g Hp Ht Hq Hg) as (j & i & Hu & Hs & Hj & Hi & Ar & Sg & Vt & Vg & Vw).
    destruct (HB u _ _ _ t (weight u) g Ar Sg) as ((t' & E & S' & V') & _). exists t'. split; [exact E|]. split.
    - rewrite S'. destruct Ht as [St _]. rewrite <- St. symmetry. apply Ar.
    - intros j' i' l f Hu' Hl Hf. pose proof (worker_at_fun Pw _ _ u (proj2 (proj2 r_parts)) Hu Hu') as Eq. inversion Eq; subst j' i'.
      specialize (V' l f Hl Hf). unfold back_terms. erewrite map_ext_in; [exact V'|]. intros o Hoo. apply in_zrange in Hoo. cbv beta. now rewrite Vg, Vw by auto.
  Qed.

  Let dx := linear_backward_by red torch back_x Px Py Pw use_bias same_xw same_wy dt dt' rg rg' weight bias x dy.
  Let dweight := linear_weight_gradient_by torch back_w Px Py Pw use_bias same_xw same_wy dt dt' rg rg' weight bias x dy.
  Let dbias := linear_bias_gradient_by torch back_b Px Py Pw use_bias same_xw same_wy dt dt' rg rg' weight bias x dy.

  Lemma r_backward :
    (exists dX, input_gradient_by M lead n_in n_out W dY dX /\
       forall i s, worker_at Px [0; i] s -> exists t, dx s = Ok t /\ teq t (block (last_cut lead n_in fi) (piece lead i) dX)) /\
    (forall v, In v (p_ranks Pw) \/ In v (p_ranks Py) -> ~ In v (p_ranks Px) -> exists t n, dx v = Ok t /\ tshape t = [n; 0]) /\
    (forall v, ~ In v (p_ranks Px) -> ~ In v (p_ranks Pw) -> ~ In v (p_ranks Py) -> dx v = Ok (dy v)).
  Proof.
    destruct r_parts as (H1 & H2 & H3). destruct r_sizes as (NL & N1 & N2).
    destruct (work_back_sum_by M red HM Px Pw Py same_xw same_wy true dt dt' rg rg' sub x r_shape r_good
              (l_bc _ _ _ _ _ _ _ HP) (l_rd _ _ _ _ _ _ _ HP) (l_flags _ _ _ _ _ _ _ HP) r_input r_local r_out_positive r_out_alike
              (fun v => back_x v (weight v)) dy r_good_back r_cotangent r_cotangent_shape r_some r_back) as (A & B & C).
    split; [|split; [exact B|exact C]].
    assert (Vx : forall i, 0 <= i < fi -> worker_at Px [0; i] (wk Px [0; i])).
    { intros i Hi. apply wk_worker; auto. assert (Ex : p_shape Px = [1; fi]) by apply HP. rewrite Ex. repeat (apply valid_index_cons; split; [lia|]). constructor. }
    assert (Hel : forall i s, 0 <= i < fi -> worker_at Px [0; i] s -> exists t, dx s = Ok t /\ tshape t = lead ++ [subshape1 fi i n_in] /\
      forall l f, valid_index lead l -> 0 <= f < subshape1 fi i n_in ->
        evaluates M (map (fun o => Prod (tat dY (l ++ [o])) (tat W [o; start1 fi i n_in + f])) (zrange n_out)) (tat t (l ++ [f]))).
    { intros i s Hi Hs. destruct (A s (map (fun j => wk Pw [j; i]) (zrange fo)) (worker_at_In _ _ _ Hs) ltac:(eapply l_receivers; eassumption))
        as (t & z & E & St & T1 & T2).
      assert (Wk : forall j, 0 <= j < fo -> worker_at Pw [j; i] (wk Pw [j; i])).
      { intros j Hj. apply wk_worker; auto. now apply (pw_valid _ _ _ _ _ _ _ HP). }
      assert (In1 : forall j, 0 <= j < fo -> In (wk Pw [j; i]) (map (fun j => wk Pw [j; i]) (zrange fo))).
      { intros j Hj. apply in_map_iff. exists j. split; auto. now apply in_zrange. }
      exists t. split; [exact E|]. split.
      - rewrite St. destruct (Hx i s Hs) as [-> _]. now apply last_cut_shape.
      - intros l f Hl Hf. rewrite <- (balanced_flat fo n_out (fun o => Prod (tat dY (l ++ [o])) (tat W [o; start1 fi i n_in + f]))) by (exact Po || auto).
        apply (evaluates_parts M (zrange fo) (fun j => back_terms j i l f) (fun j => tat (z (wk Pw [j; i])) (l ++ [f]))).
        + intros j Hj. apply in_zrange in Hj. destruct (T1 _ (In1 j Hj)) as (_ & Gd). apply Gd; auto.
        + specialize (T2 (l ++ [f])). unfold nums in T2. rewrite map_map in T2. exact T2. }
    destruct (assemble (last_cut lead n_in fi) (fun idx => val (dx (wk Px [0; last idx 0])))
      (fun g r => evaluates M (map (fun o => Prod (tat dY (removelast g ++ [o])) (tat W [o; last g 0])) (zrange n_out)) r)) as (Y & SY & BY & VY).
    { now apply last_cut_ok. }
    { intros idx Hi. destruct (piece_of lead n_in fi idx Pi Hi) as (i & -> & Hi'). rewrite piece_last.
      destruct (Hel i _ Hi' (Vx i Hi')) as (t & -> & St & Vt). cbn [val]. rewrite last_cut_shape by auto. split; [exact St|].
      intros p Hp. apply valid_snoc in Hp as (l & f & -> & Hl & Hf). rewrite last_cut_point by (auto; now apply valid_index_length in Hl).
      rewrite removelast_last, last_last. now apply Vt. }
    exists Y. rewrite last_cut_extents in SY, VY by auto. split; [split; [exact SY|]|].
    - intros l f Hl Hf. specialize (VY (l ++ [f])). rewrite removelast_last, last_last in VY. apply VY. apply valid_snoc. eauto.
    - intros i s Hs. assert (Hi : 0 <= i < fi).
      { destruct (px_index _ _ _ _ _ _ _ HP _ (proj1 Hs)) as (i' & Ei & Hi). inversion Ei. auto. }
      destruct (Hel i s Hi Hs) as (t & E & _). exists t. split; [exact E|].
      specialize (BY _ (piece_valid lead n_in fi i Pi Hi)). cbv beta in BY. rewrite piece_last, (worker_wk _ _ _ Hs), E in BY. exact BY.
  Qed.

  Lemma r_layer bk u : In u (p_ranks Pw) ->
    exists s d t g, paired Px Pw false false s u /\ teq t (x s) /\ paired Py Pw false true d u /\ teq g (dy d) /\
      work_layer_gradient Px Pw Py same_xw same_wy true dt dt' rg rg' sub x dy bk u = bk u t g.
  Proof.
    exact (work_layer_by Px Pw Py same_xw same_wy true dt dt' rg rg' sub x r_shape r_good
              (l_bc _ _ _ _ _ _ _ HP) (l_rd _ _ _ _ _ _ _ HP) (l_flags _ _ _ _ _ _ _ HP) r_input r_local r_out_positive r_out_alike
              dy r_cotangent r_cotangent_shape r_some bk u).
  Qed.

  Lemma r_weight : exists dW, weight_gradient_by M lead n_in n_out X dY dW /\
    forall idx u, worker_at Pw idx u -> exists t, dweight u = Ok t /\ teq t (block (balanced [n_out; n_in] [fo; fi]) idx dW).
  Proof.
    destruct r_parts as (H1 & H2 & H3). destruct r_sizes as (NL & N1 & N2). assert (EP : p_shape Pw = [fo; fi]) by apply HP.
    assert (P2 : pos_shape [fo; fi]) by (repeat constructor; [exact Po|exact Pi]). assert (N2' : nonneg_shape [n_out; n_in]) by (repeat constructor; auto).
    assert (Hel : forall j i u, worker_at Pw [j; i] u -> exists t, dweight u = Ok t /\ tshape t = [subshape1 fo j n_out; subshape1 fi i n_in] /\
      forall o f, 0 <= o < subshape1 fo j n_out -> 0 <= f < subshape1 fi i n_in ->
        evaluates M (map (fun l => Prod (tat dY (l ++ [start1 fo j n_out + o])) (tat X (l ++ [start1 fi i n_in + f]))) (indices lead)) (tat t [o; f])).
    { intros j i u Hu. destruct (r_layer (fun v => back_w v (weight v)) u (worker_at_In _ _ _ Hu)) as (s & d & t & g & Hp & Ht & Hq & Hg & E).
      destruct (r_triple s u d t g Hp Ht Hq Hg) as (j' & i' & Hu' & Hs & Hj & Hi & Ar & Sg & Vt & Vg & Vw).
      pose proof (worker_at_fun Pw _ _ u H3 Hu Hu') as Eq. inversion Eq; subst j' i'.
      destruct (HB u _ _ _ t (weight u) g Ar Sg) as (_ & (t' & E' & S' & V') & _). exists t'. split; [unfold dweight, linear_weight_gradient_by; fold sub; now rewrite E|].
      split; [exact S'|]. intros o f Hoo Hf. specialize (V' o f Hoo Hf). erewrite map_ext_in; [exact V'|].
      intros l Hl. apply in_indices in Hl. cbv beta. now rewrite Vt, Vg by auto. }
    destruct (assemble (balanced [n_out; n_in] [fo; fi]) (fun idx => val (dweight (wk Pw idx)))
      (fun g r => evaluates M (map (fun l => Prod (tat dY (l ++ [nth 0 g 0])) (tat X (l ++ [nth 1 g 0]))) (indices lead)) r)) as (Y & SY & BY & VY).
    { now apply balanced_ok. }
    { intros idx Hi. rewrite balanced_workers in Hi by auto. rewrite <- EP in Hi. pose proof (wk_worker Pw idx H3 Hi) as Hu.
      destruct (pw_index _ _ _ _ _ _ _ HP idx Hi) as (j & i & -> & Hj & Hi'). destruct (Hel j i _ Hu) as (t & -> & St & Vt). cbn [val].
      rewrite weight_shape by auto. split; [exact St|]. intros p Hp. apply valid_index_cons_inv in Hp as (o & q & -> & Hoo & Hp).
      apply valid_index_cons_inv in Hp as (f & q' & -> & Hf & Hp). apply valid_index_nil in Hp. subst q'.
      unfold block_lo, balanced, vadd. cbn [map2 nth]. rewrite !balanced1_prefix by lia. now apply Vt. }
    exists Y. rewrite balanced_shape in SY, VY by auto. split; [split; [exact SY|]|].
    - intros o f Hoo Hf. apply (VY [o; f]). repeat (apply valid_index_cons; split; auto). constructor.
    - intros idx u Hu. destruct (pw_index _ _ _ _ _ _ _ HP idx (proj1 Hu)) as (j & i & -> & Hj & Hi'). destruct (Hel j i u Hu) as (t & E & _).
      exists t. split; [exact E|]. assert (Hv : valid_index (layout_workers (balanced [n_out; n_in] [fo; fi])) [j; i]).
      { rewrite balanced_workers by auto. rewrite <- EP. apply Hu. }
      specialize (BY _ Hv). cbv beta in BY. rewrite (worker_wk _ _ _ Hu), E in BY. exact BY.
  Qed.

  Lemma r_bias_gradient : use_bias = true -> (forall j u, worker_at Pw [j; 0] u -> tshape (bias u) = [subshape1 fo j n_out]) ->
    exists db, bias_gradient_by M lead n_out dY db /\
    forall j u, worker_at Pw [j; 0] u -> exists t, dbias u = Some (Ok t) /\ teq t (block (balanced [n_out] [fo]) [j] db).
  Proof.
    intros Ub Sb. destruct r_parts as (H1 & H2 & H3). destruct r_sizes as (NL & N1 & N2).
    assert (P2 : pos_shape [fo]) by (repeat constructor; exact Po). assert (N2' : nonneg_shape [n_out]) by (repeat constructor; auto).
    assert (Hel : forall j u, worker_at Pw [j; 0] u -> exists t, dbias u = Some (Ok t) /\ tshape t = [subshape1 fo j n_out] /\
      forall o, 0 <= o < subshape1 fo j n_out -> evaluates M (map (fun l => Num (tat dY (l ++ [start1 fo j n_out + o]))) (indices lead)) (tat t [o])).
    { intros j u Hu. destruct (r_layer (fun v => back_b v (bias v)) u (worker_at_In _ _ _ Hu)) as (s & d & t & g & Hp & Ht & Hq & Hg & E).
      destruct (r_triple s u d t g Hp Ht Hq Hg) as (j' & i' & Hu' & Hs & Hj & Hi & Ar & Sg & Vt & Vg & Vw).
      pose proof (worker_at_fun Pw _ _ u H3 Hu Hu') as Eq. inversion Eq; subst j' i'.
      destruct (HB u _ _ _ t (weight u) g Ar Sg) as (_ & _ & Bk). destruct (Bk (bias u) (Sb j u Hu)) as (t' & E' & S' & V').
      exists t'. split.
      { unfold dbias, linear_bias_gradient_by. apply (index_in_spec Pw u [j; 0] H3) in Hu as Ei. rewrite Ei. unfold sublinear_bias. cbn [last]. rewrite Z.eqb_refl.
        assert (Kb : forall q : result (tensor R), (if use_bias then Some q else None) = Some q) by (intros q; now rewrite Ub).
        rewrite Kb. fold sub. now rewrite E, E'. }
      split; [exact S'|]. intros o Hoo. specialize (V' o Hoo). erewrite map_ext_in; [exact V'|].
      intros l Hl. apply in_indices in Hl. cbv beta. now rewrite Vg by auto. }
    assert (Wk : forall j, 0 <= j < fo -> worker_at Pw [j; 0] (wk Pw [j; 0])).
    { intros j Hj. apply wk_worker; auto. apply (pw_valid _ _ _ _ _ _ _ HP). lia. }
    assert (Vb : forall j, 0 <= j < fo -> valid_index (layout_workers (balanced [n_out] [fo])) [j]).
    { intros j Hj. rewrite balanced_workers by auto. constructor; [lia|constructor]. }
    destruct (assemble (balanced [n_out] [fo]) (fun idx => match dbias (wk Pw [nth 0 idx 0; 0]) with Some r => val r | None => tzeros [] end)
      (fun g r => evaluates M (map (fun l => Num (tat dY (l ++ [nth 0 g 0]))) (indices lead)) r)) as (Y & SY & BY & VY).
    { now apply balanced_ok. }
    { intros idx Hi. rewrite balanced_workers in Hi by auto. apply valid_index_cons_inv in Hi as (j & q & -> & Hj & Hq). apply valid_index_nil in Hq. subst q.
      cbn [nth]. destruct (Hel j _ (Wk j Hj)) as (t & -> & St & Vt). cbn [val].
      split; [rewrite St; unfold block_shape, balanced; cbn [map2]; now rewrite balanced1_nth|].
      intros p Hp. unfold block_shape, balanced in Hp. cbn [map2] in Hp. rewrite balanced1_nth in Hp by auto.
      apply valid_index_cons_inv in Hp as (o & q & -> & Hoo & Hp). apply valid_index_nil in Hp. subst q.
      unfold block_lo, balanced, vadd. cbn [map2 nth]. rewrite balanced1_prefix by lia. now apply Vt. }
    exists Y. rewrite balanced_shape in SY, VY by auto. split; [split; [exact SY|]|].
    - intros o Hoo. apply (VY [o]). constructor; [auto|constructor].
    - intros j u Hu. assert (Hj : 0 <= j < fo) by (apply (pw_valid Px Py Pw fi fo same_xw same_wy HP j 0), Hu). destruct (Hel j u Hu) as (t & E & _).
      exists t. split; [exact E|]. specialize (BY _ (Vb j Hj)). cbn [nth] in BY. rewrite (worker_wk _ _ _ Hu), E in BY. exact BY.
  Qed.
End Linear.

Lemma C61_linear_proof : C61_linear_statement.
Proof.
  intros R M red torch back_x back_w back_b Px Py Pw fi fo same_xw same_wy dt dt' rg rg' lead n_in n_out X W b weight bias x
    HM HT HP HA Hx Hw Hb Ho use_bias y.
  destruct (r_forward M red torch Px Py Pw fi fo same_xw same_wy dt dt' rg rg' lead n_in n_out X W b weight bias x HM HT HP HA Hx Hw Hb Ho) as (A & B & C).
  split; [exact A|]. split; [exact B|]. split; [exact C|]. intros dY dy HB HdY Hdy Hody dx dweight dbias.
  destruct (r_backward M red torch Px Py Pw fi fo same_xw same_wy dt dt' rg rg' lead n_in n_out X W b weight bias x HM HT HP HA Hx Hw Hb Ho
              back_x back_w back_b dY dy HB Hdy Hody) as (A' & B' & C').
  split; [exact A'|]. split.
  { exact (r_weight M red torch Px Py Pw fi fo same_xw same_wy dt dt' rg rg' lead n_in n_out X W b weight bias x HT HP HA Hx Hw Hb Ho
              back_x back_w back_b dY dy HB Hdy Hody). }
  split; [|split; [|split; [exact B'|exact C']]].
  - intros Hn. assert (Ub : use_bias = true) by (unfold use_bias; destruct b; congruence).
    apply (r_bias_gradient M red torch Px Py Pw fi fo same_xw same_wy dt dt' rg rg' lead n_in n_out X W b weight bias x HT HP HA Hx Hw Hb Ho
              back_x back_w back_b dY dy HB Hdy Hody Ub).
    intros j u Hu. destruct b as [b0|] eqn:Eb; [|congruence]. exact (proj1 (r_bias torch Px Py Pw fi fo same_xw same_wy dt dt' rg rg' lead n_in n_out X W (Some b0) weight bias x HP Hx Hw Hb Ho j u Hu b0 eq_refl)).
  - intros j i u Hu Hi. unfold dbias, linear_bias_gradient_by. assert (HW : part_ok Pw) by apply HP. apply (index_in_spec Pw u [j; i] HW) in Hu. rewrite Hu.
    unfold sublinear_bias. cbn [last]. now destruct (Z.eqb_spec i 0).
Qed.

Theorem C61_sum_reduce : C61_sum_reduce_statement.
Proof. exact C61_sum_reduce_proof. Qed.
Theorem C61_broadcast : C61_broadcast_statement.
Proof. exact C61_broadcast_proof. Qed.
Theorem C61_all_sum_reduce : C61_all_sum_reduce_statement.
Proof. exact C61_all_sum_reduce_proof. Qed.
Theorem C61_exact : C61_exact_statement.
Proof. exact C61_exact_proof. Qed.
Theorem C61_linear : C61_linear_statement.
Proof. exact C61_linear_proof. Qed.

(** * Examples

    Sums of at least 256 lose their last four binary digits, so the order of the
    additions matters.  Workers of even number add from the left, the others from the
    right. *)
Definition ex61_round (a : Z) : Z := if Z.abs a <? 256 then a else 16 * (a / 16).
Definition ex61_M : machine Zring :=
  mkmachine Zring (fun a b => ex61_round (a + b)) (fun a b => ex61_round (a * b)) (fun a b c => ex61_round (a * b + c)).

Section Orders.
  Context {R : CRing}.
  Variable M : machine R.

  Definition alternate (v : Z) (g : list Z) (l : list R) (i : list Z) : R :=
    match l with
    | [] => rzero
    | a :: l => if Z.even v then fold_left (m_add M) l a else m_add M a (fold_right (m_add M) rzero l)
    end.
  Definition alternate_terms (v : Z) (l : list (term R)) : R :=
    if Z.even v
    then fold_left (fun r t => m_add M r (match t with Num a => a | Prod a b => m_mul M a b end)) l rzero
    else fold_right (fun t r => match t with Num a => m_add M a r | Prod a b => m_fma M a b r end) rzero l.

  Lemma left_fold (f : term R -> R) : (forall t, evaluates M [t] (f t)) ->
    forall l ts a, evaluates M ts a -> evaluates M (ts ++ l) (fold_left (fun r t => m_add M r (f t)) l a).
  Proof.
    intros Hf. induction l as [|t l IH]; intros ts a H; [now rewrite app_nil_r|]. cbn [fold_left].
    replace (ts ++ t :: l) with ((ts ++ [t]) ++ l) by now rewrite <- app_assoc. apply IH. apply ev_add; auto.
  Qed.
  Lemma alternate_terms_ok v l : evaluates M l (alternate_terms v l).
  Proof.
    unfold alternate_terms. destruct (Z.even v).
    - apply (left_fold (fun t => match t with Num a => a | Prod a b => m_mul M a b end)) with (ts := []); [|apply ev_zero].
      intros [a|a b]; [apply ev_num|apply ev_prod].
    - induction l as [|[a|a b] l IH]; [apply ev_zero| |]; cbn [fold_right].
      + apply (ev_add M [Num a] l); [apply ev_num|exact IH].
      + apply ev_fma. exact IH.
  Qed.
  Lemma alternate_adds : adds M alternate.
  Proof.
    intros v g [|a l] i H; [congruence|]. unfold alternate. cbn [map]. destruct (Z.even v).
    - assert (K : forall (l : list R) (ts : list (term R)) (a : R), evaluates M ts a -> evaluates M (ts ++ map Num l) (fold_left (m_add M) l a)).
      { clear. induction l as [|b l IH]; intros ts a H; [now rewrite app_nil_r|]. cbn [fold_left map].
        replace (ts ++ Num b :: map Num l) with ((ts ++ [Num b]) ++ map Num l) by now rewrite <- app_assoc. apply IH. apply ev_add; [auto|apply ev_num]. }
      apply (K l [Num a]). apply ev_num.
    - apply (ev_add M [Num a]); [apply ev_num|]. clear. induction l as [|b l IH]; [apply ev_zero|]. cbn [fold_right map].
      apply (ev_add M [Num b]); [apply ev_num|exact IH].
  Qed.

  Definition alternate_torch (v : Z) (W : tensor R) (b : option (tensor R)) (X : tensor R) : result (tensor R) :=
    match tshape W with
    | [n_out; n_in] =>
        Ok (mkt (removelast (tshape X) ++ [n_out]) (fun i => alternate_terms v (linear_terms n_in X W b (removelast i) (last i 0))))
    | _ => Raise ErrTorch
    end.
  Definition alternate_x (v : Z) (W X g : tensor R) : result (tensor R) :=
    Ok (mkt (tshape X)
      (fun i => alternate_terms v (map (fun o => Prod (tat g (removelast i ++ [o])) (tat W [o; last i 0])) (zrange (last (tshape g) 0))))).
  Definition alternate_w (v : Z) (W X g : tensor R) : result (tensor R) :=
    Ok (mkt (tshape W)
      (fun i => alternate_terms v (map (fun l => Prod (tat g (l ++ [nth 0 i 0])) (tat X (l ++ [nth 1 i 0]))) (indices (removelast (tshape X)))))).
  Definition alternate_b (v : Z) (b X g : tensor R) : result (tensor R) :=
    Ok (mkt (tshape b) (fun i => alternate_terms v (map (fun l => Num (tat g (l ++ [nth 0 i 0]))) (indices (removelast (tshape X)))))).
  Lemma alternate_torch_ok : torch_linear_by M alternate_torch.
  Proof.
    intros v lead n_in n_out X W b (SX & SW & _). unfold alternate_torch. rewrite SW, SX, removelast_last.
    eexists. split; [reflexivity|]. split; [reflexivity|]. intros l o Hl Ho. cbn [tat]. rewrite removelast_last, last_last. apply alternate_terms_ok.
  Qed.
  Lemma alternate_back_ok : torch_linear_back_by M alternate_x alternate_w alternate_b.
  Proof.
    intros v lead n_in n_out X W dY (SX & SW & _) SY. split; [|split].
    - eexists. split; [reflexivity|]. split; [exact SX|]. intros l f Hl Hf. cbn [tat]. rewrite SY, !removelast_last, !last_last. apply alternate_terms_ok.
    - eexists. split; [reflexivity|]. split; [exact SW|]. intros o f Ho Hf. cbn [tat nth]. rewrite SX, removelast_last. apply alternate_terms_ok.
    - intros b Sb. eexists. split; [reflexivity|]. split; [exact Sb|]. intros o Ho. cbn [tat nth]. rewrite SX, removelast_last. apply alternate_terms_ok.
  Qed.
End Orders.

(** The contributions 70, 77, .., 105 on two workers that add in different orders; the
    exact sum is 525. *)
Definition ex61_x (v : Z) : tensor Zring := @mkt Zring [2] (fun i => 7 * v + 1000 * nth 0 i 0).
Example C61_reductions_example :
  adds ex61_M (alternate ex61_M) /\ part_ok ex17_P /\ axes_given 2 (Some [0; 1]) None /\ reduced_with ex17_P (Some [0; 1]) None 14 11 /\
  let y := all_sum_reduce_layer_by (alternate ex61_M) ex17_P (Some [0; 1]) None ex61_x ex61_x in
  tat (val (y 14)) [0] = 512 /\ tat (val (y 11)) [0] = 496 /\
  tat (val (sum_reduce_layer_by (alternate ex61_M) ex_dst ex_src false false false false (fun _ => 0) (fun _ => true) ex16_x 2)) [1] = 41 + 71 /\
  tat (val (broadcast_layer_backward_by (alternate ex61_M) ex_src ex_dst false false false true (fun _ => 0) (fun _ => true) ex14_x ex15_dy 0)) [1; 0] = 704.
Proof.
  split; [apply alternate_adds|]. split; [repeat split; try discriminate; repeat constructor; simpl; lia|].
  split; [repeat constructor; lia|]. split.
  - exists [1; 1], [0; 1]. split; [repeat split; repeat constructor; lia|].
    split; [repeat split; repeat constructor; lia|].
    intros k Hk Hkept. destruct k as [|[|k]]; simpl in *; try lia; discriminate.
  - cbv zeta. repeat split; vm_compute; reflexivity.
Qed.

(** The layer of C32's example. *)
Example C61_linear_example :
  torch_linear_by ex61_M (alternate_torch ex61_M) /\ torch_linear_back_by ex61_M (alternate_x ex61_M) (alternate_w ex61_M) (alternate_b ex61_M) /\
  linear_arguments [2] 5 4 ex32_X ex32_W (Some ex32_b) /\
  let y := linear_forward_by (alternate ex61_M) (alternate_torch ex61_M) ex32_x ex32_y ex32_w true false false (fun _ => 0) (fun _ => 0) (fun _ => true) (fun _ => true)
             ex32_weight ex32_bias ex32_in in
  let dx := linear_backward_by (alternate ex61_M) (alternate_torch ex61_M) (alternate_x ex61_M) ex32_x ex32_y ex32_w true false false (fun _ => 0) (fun _ => 0) (fun _ => true) (fun _ => true)
             ex32_weight ex32_bias ex32_in ex50_dy in
  let dw := linear_weight_gradient_by (alternate_torch ex61_M) (alternate_w ex61_M) ex32_x ex32_y ex32_w true false false (fun _ => 0) (fun _ => 0) (fun _ => true) (fun _ => true)
             ex32_weight ex32_bias ex32_in ex50_dy in
  tshape (val (y 7)) = [2; 1] /\ tat (val (y 7)) [1; 0] = 305344 /\ tat ex32_Y [1; 2] = 305385 /\ y 8 = Ok (ex32_in 8) /\
  map (tat (val (dx 1))) (indices [2; 2]) = [-2208; -2496; -1648; -1824] /\ tat (val (dw 6)) [0; 1] = tat ex50_dW [3; 4].
Proof.
  split; [apply alternate_torch_ok|]. split; [apply alternate_back_ok|]. split.
  - repeat (split; [reflexivity|]). split; [repeat constructor; lia|]. lia.
  - cbv zeta. repeat split; vm_compute; reflexivity.
Qed.

Print Assumptions C61_sum_reduce.
Print Assumptions C61_broadcast.
Print Assumptions C61_all_sum_reduce.
Print Assumptions C61_exact.
Print Assumptions C61_linear.
