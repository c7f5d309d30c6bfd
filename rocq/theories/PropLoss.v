(** Distributed losses: C35 (values) and C46 (gradients). *)

From Coq Require Import QArith Qcanon.
From Verif Require Import Prelude SpecIndex SpecLayout SpecPartition ModelSlicing ProofSlicing ProofDecomposition ModelPartition ProofPartition
  Ring Tensor ModelCollectives ProofCollectives PropCollectives Blocks ModelRepartition ProofRepartition PropRepartition ModelConv ProofConv
  ModelUtilities ModelBatchNorm PropBatchNorm ModelLoss.

Open Scope Z_scope.

(** ** The sequential loss *)

Section Sequential.
  Context {R : CRing}.
  Variable A : arith R.
  Variables (f df : R -> R -> R).

  Definition loss_sum (G T : tensor R) : R := sumf (indices (tshape G)) (fun i => f (tat G i) (tat T i)).
  (** torch divides by the number of elements, or the extent of the batch. *)
  Definition divisor (r : reduction) (G : tensor R) : Z :=
    match r with RMean => zprod (tshape G) | RBatchMean => nth 0 (tshape G) 0 | _ => 1 end.
  Definition sequential_loss (r : reduction) (G T : tensor R) : R :=
    match r with
    | RNone | RSum => loss_sum G T
    | _ => adiv A (loss_sum G T) (rint (divisor r G))
    end.
  (** Its gradient with respect to [G] for the cotangent [g]. *)
  Definition sequential_gradient (r : reduction) (G T : tensor R) (g : R) : tensor R :=
    let g' := match r with RNone | RSum => g | _ => adiv A g (rint (divisor r G)) end in
    mkt (tshape G) (fun i => rmul g' (df (tat G i) (tat T i))).
End Sequential.

(** The input and the target of a loss on the workers of [P], in blocks of any sizes. *)
Definition loss_data {R : CRing} (P : part) (L : layout) (G T : tensor R) (x t : Z -> tensor R) : Prop :=
  part_ok P /\ layout_ok L /\ layout_workers L = p_shape P /\ holds_blocks P L G x /\ holds_blocks P L T t.

(** Division by one changes nothing. *)
Definition unit_division {R : CRing} (A : arith R) : Prop := forall a, adiv A a (rint 1) = a.

Definition C35_statement : Prop :=
  forall (R : CRing) (A : arith R) f P kl r dt rg L (G T : tensor R) (x t : Z -> tensor R),
  loss_data P L G T x t -> accepts kl r = true ->
  (r = RSum -> unit_division A) -> (r = RBatchMean -> p_shape P <> []) ->
  let y := loss_forward A f P kl r dt rg x t in
  (r <> RNone ->
     (* the first worker of the partition *)
     (exists l, y (nth 0 (p_ranks P) 0) = Ok l /\ tshape l = [] /\ tat l [] = sequential_loss A f r G T) /\
     (* a placeholder elsewhere *)
     forall v, In v (p_ranks P) -> v <> nth 0 (p_ranks P) 0 -> exists l, y v = Ok l /\ tshape l = [] /\ tat l [] = rzero) /\
  (r = RNone -> forall idx v, worker_at P idx v ->
     exists l, y v = Ok l /\ teq l (block L idx (mkt (tshape G) (fun i => f (tat G i) (tat T i))))).

Definition C46_statement : Prop :=
  forall (R : CRing) (A : arith R) f df P kl r dt rg L (G T : tensor R) (x t dy : Z -> tensor R),
  loss_data P L G T x t -> accepts kl r = true ->
  (r = RSum -> unit_division A) -> (r = RBatchMean -> p_shape P <> []) ->
  let delivered dG := forall idx v, worker_at P idx v -> exists dx,
    loss_backward A f df P kl r dt rg x t dy v = Ok dx /\ teq dx (block L idx dG) in
  (* the cotangents of the scalar outputs; only the first worker's matters *)
  (r <> RNone -> delivered (sequential_gradient A df r G T (tat (dy (nth 0 (p_ranks P) 0)) []))) /\
  (* the cotangents of the losses of the elements *)
  (r = RNone -> forall dL, holds_blocks P L dL dy ->
     delivered (mkt (tshape G) (fun i => rmul (tat dL i) (df (tat G i) (tat T i))))).

(** ** Counting *)

Lemma zsum_sumf {I} (l : list I) (h : I -> Z) : zsum (map h l) = @sumf Zring I l h.
Proof. induction l as [|i l IH]; [reflexivity|]. cbn [map zsum fold_right]. rewrite sumf_cons. cbn [radd Zring]. unfold zsum in IH. now rewrite IH. Qed.

Lemma count_const {I} (l : list I) (a : Z) : @sumf Zring I l (fun _ => a) = Z.of_nat (length l) * a.
Proof. induction l as [|i l IH]; [cbn; lia|]. rewrite sumf_cons, IH. cbn [radd Zring length]. lia. Qed.

Lemma count_indices s : nonneg_shape s -> @sumf Zring _ (indices s) (fun _ => 1) = zprod s.
Proof.
  induction 1 as [|n s Hn Hs IH]; [reflexivity|]. cbn [indices zprod fold_right]. rewrite sumf_flat_map.
  rewrite (@sumf_ext Zring _ _ _ (fun _ => zprod s)) by (intros i _; rewrite sumf_map; exact IH).
  rewrite count_const, zrange_length, Z2Nat.id by lia. reflexivity.
Qed.

Lemma count_blocks L : layout_ok L ->
  @sumf Zring _ (range_index (layout_workers L)) (fun i => zprod (block_shape L i)) = zprod (layout_shape L).
Proof.
  intros HL. rewrite <- count_indices by now apply layout_shape_nonneg. rewrite (@block_sum Zring L HL).
  apply sumf_ext. intros i _. symmetry. apply count_indices. now apply block_shape_nonneg.
Qed.

Lemma sum_nth (e : list Z) : @sumf Zring _ (zrange (Z.of_nat (length e))) (fun i => nth (Z.to_nat i) e 0) = zsum e.
Proof.
  induction e as [|a e IH] using rev_ind; [reflexivity|]. rewrite app_length. cbn [length]. rewrite Nat2Z.inj_add.
  change (Z.of_nat 1) with 1. rewrite zrange_succ by lia. rewrite sumf_app, zsum_app.
  rewrite (@sumf_ext Zring _ _ _ (fun i => nth (Z.to_nat i) e 0)) by (intros i Hi; apply in_zrange in Hi; apply app_nth1; lia).
  rewrite IH, sumf_cons, sumf_nil. rewrite Nat2Z.id, app_nth2, Nat.sub_diag by lia. cbn. lia.
Qed.

(** Extents of the batch on the workers with first index in all other dimensions. *)
Lemma count_batch L e : pos_shape (layout_workers L) ->
  @sumf Zring _ (range_index (layout_workers (e :: L)))
    (fun i => if forallb (Z.eqb 0) (skipn 1 i) then nth 0 (block_shape (e :: L) i) 0 else 0) = zsum e.
Proof.
  intros Hp. rewrite <- sum_nth. cbn [layout_workers map range_index]. fold (layout_workers L). rewrite sumf_flat_map. apply sumf_ext. intros i _.
  rewrite sumf_map. cbn [skipn nth block_shape map2].
  rewrite (sumf_single _ _ (map (fun _ => 0) L)).
  - assert (E : forallb (Z.eqb 0) (map (fun _ => 0) L) = true) by (clear; induction L; auto). now rewrite E.
  - apply range_index_nodup.
  - apply in_range_index. clear - Hp. induction L as [|a L IH]; [constructor|]. inversion Hp; subst. cbn [layout_workers map]. constructor; [lia|].
    now apply IH.
  - intros j Hj Hne. destruct (forallb (Z.eqb 0) j) eqn:E; [|reflexivity]. exfalso. apply Hne. apply in_range_index in Hj.
    clear - Hj E. revert j Hj E. induction L as [|a L IH]; intros j Hj E; [now apply valid_index_nil in Hj|].
    apply valid_index_cons_inv in Hj as (k & j' & -> & _ & Hj). cbn [forallb] in E. apply andb_true_iff in E as [E1 E2].
    apply Z.eqb_eq in E1. cbn [map]. f_equal; auto.
Qed.

(** ** The partition of the result *)

Section Root.
  Variable P : part.
  Hypothesis HP : part_ok P.

  Definition m0 : list bool := map (fun _ => true) (p_shape P).
  Definition P0 : part := sub_part m0 P.
  Definition first : Z := nth 0 (p_ranks P) 0.
  Definition origin : list Z := map (fun _ => 0) (p_shape P).

  Lemma m0_length : length m0 = length (p_shape P). Proof. apply map_length. Qed.
  Lemma m0_unmask idx : valid_index (p_shape P) idx -> unmask m0 idx = origin.
  Proof.
    unfold m0, origin. generalize (p_shape P) as s. intros s H. induction H as [|n i s j Hi Hj IH]; [reflexivity|].
    cbn [map unmask map2]. f_equal. exact IH.
  Qed.
  Lemma origin_valid : valid_index (p_shape P) origin.
  Proof.
    unfold origin. destruct HP as (_ & _ & Hp & _). clear HP. induction Hp as [|n s Hn Hs IH]; [constructor|]. cbn [map]. constructor; [lia|exact IH].
  Qed.
  Lemma P0_shape : p_shape P0 = repeat 1 (length (p_shape P)).
  Proof.
    unfold P0, m0. cbn [sub_part p_shape]. induction (p_shape P) as [|n s IH]; [reflexivity|]. cbn [map masked map2 length repeat]. f_equal. exact IH.
  Qed.
  Lemma origin_first : worker_at P origin first.
  Proof.
    split; [exact origin_valid|]. unfold first. 
    assert (E : row_major (p_shape P) origin = 0).
    { unfold origin. clear. induction (p_shape P) as [|n s IH]; [reflexivity|]. cbn [map row_major]. rewrite IH. lia. }
    rewrite E. cbn [Z.to_nat]. destruct (p_ranks P) as [|a l] eqn:E2; [|reflexivity].
    exfalso. destruct HP as (_ & _ & Hp & HLn). rewrite E2 in HLn. cbn in HLn.
    assert (0 < zprod (p_shape P)); [|lia]. clear - Hp. induction Hp as [|n s Hn Hs IH]; cbn [zprod fold_right]; [lia|]. unfold zprod in IH. nia.
  Qed.

  Lemma P0_ok : part_ok P0. Proof. apply sub_ok; [exact HP|exact m0_length]. Qed.
  Lemma P0_ranks : p_ranks P0 = [first].
  Proof.
    unfold P0. cbn [sub_part p_ranks]. change (masked m0 (p_shape P)) with (p_shape P0). rewrite P0_shape.
    assert (E : range_index (repeat 1 (length (p_shape P))) = [origin]).
    { unfold origin. clear. induction (p_shape P) as [|n s IH]; [reflexivity|]. cbn [length repeat range_index]. rewrite IH. reflexivity. }
    rewrite E. cbn [map]. f_equal. apply worker_wk. exact origin_first.
  Qed.
  Lemma P0_part : root_partition P = Ok P0.
  Proof.
    unfold root_partition, create_cartesian_topology. cbn [incl_ranks map length Z.to_nat].
    assert (E : zprod (repeat 1 (length (p_shape P))) = 1).
    { clear. induction (p_shape P) as [|n s IH]; [reflexivity|]. cbn [length repeat zprod fold_right]. unfold zprod in IH. rewrite IH. reflexivity. }
    rewrite E. cbn. f_equal. rewrite <- P0_shape. fold first. rewrite <- P0_ranks. reflexivity.
  Qed.
  Lemma P0_rd : rd_accepted P P0 false false false.
  Proof.
    split; [exact HP|]. split; [exact P0_ok|]. split; [reflexivity|]. split; [|discriminate].
    unfold P0. cbn [sub_part p_shape flip]. apply masked_compatible. exact m0_length.
  Qed.
  Lemma P0_active v : is_active (p_ranks P0) v = true <-> v = first.
  Proof. rewrite is_active_spec, P0_ranks. cbn. intuition. Qed.
End Root.

Section Loss.
  Context {R : CRing}.
  Variable A : arith R.
  Variables (f df : R -> R -> R) (P : part) (kl : bool) (r : reduction) (dt : Z -> Z) (rg : Z -> bool) (L : layout).
  Variables (G T : tensor R) (x t : Z -> tensor R).
  Hypothesis HD : loss_data P L G T x t.
  Hypothesis Hr : accepts kl r = true.

  Let HP : part_ok P. Proof. apply HD. Qed.
  Let HL : layout_ok L. Proof. apply HD. Qed.
  Let HW : layout_workers L = p_shape P. Proof. apply HD. Qed.


  Let HB : forall idx v, worker_at P idx v ->
    tshape (x v) = block_shape L idx /\ tshape (t v) = block_shape L idx /\
    forall i, valid_index (block_shape L idx) i -> tat (x v) i = tat G (vadd (block_lo L idx) i) /\ tat (t v) i = tat T (vadd (block_lo L idx) i).
  Proof.
    intros idx v Hv. destruct HD as (_ & _ & _ & [_ HG] & [_ HT]). destruct (HG idx v Hv) as [G1 G2], (HT idx v Hv) as [T1 T2].
    cbn [block tshape tat] in *. split; [exact G1|]. split; [exact T1|]. intros i Hi. split; [apply G2; now rewrite G1|apply T2; now rewrite T1].
  Qed.
  Let HGs : tshape G = layout_shape L. Proof. apply HD. Qed.

  (** The local sums. *)
  Lemma local_ok idx v : worker_at P idx v -> exists l, local_loss f (x v) (t v) = Ok l /\
    tat l [] = sumf (indices (block_shape L idx)) (fun p => f (tat G (vadd (block_lo L idx) p)) (tat T (vadd (block_lo L idx) p))).
  Proof.
    intros Hv. destruct (HB idx v Hv) as (E1 & E2 & E3). unfold local_loss, elementwise. rewrite E1, E2, zlist_eqb_refl. cbn [rbind].
    eexists. split; [reflexivity|]. cbn [tat tshape]. apply sumf_ext. intros i Hi. apply in_indices in Hi. destruct (E3 i Hi) as [-> ->]. reflexivity.
  Qed.
  Lemma reshaped_ok idx v : worker_at P idx v -> tshape (reshaped f x t v) = [1] /\
    forall i, tat (reshaped f x t v) i = sumf (indices (block_shape L idx)) (fun p => f (tat G (vadd (block_lo L idx) p)) (tat T (vadd (block_lo L idx) p))).
  Proof.
    intros Hv. destruct (local_ok idx v Hv) as (l & E & V). unfold reshaped. rewrite E. split; [reflexivity|]. intros i. exact V.
  Qed.
  Lemma total : sumf (p_ranks P) (fun v => tat (reshaped f x t v) [0]) = loss_sum f G T.
  Proof.
    rewrite (ranks_wk P HP), sumf_map. unfold loss_sum. rewrite HGs, (block_sum L HL), HW. apply sumf_ext. intros idx Hi.
    apply in_range_index in Hi. destruct (reshaped_ok idx (wk P idx)) as [_ ->]; [now apply wk_worker|reflexivity].
  Qed.
  Lemma reshaped_shapes : shapes_ok P (P0 P) true (reshaped f x t).
  Proof.
    intros v Hv. assert (Hv' : In v (p_ranks P)).
    { destruct Hv as [H|H]; auto. rewrite P0_ranks in H by exact HP. destruct H as [<-|[]]. eapply worker_at_In, origin_first, HP. }
    destruct (worker_at_exists P v HP Hv') as [idx Hi]. destruct (reshaped_ok idx v Hi) as [-> _]. split; [repeat constructor; lia|discriminate].
  Qed.

  Lemma factor_ok : (r = RBatchMean -> p_shape P <> []) -> normalization_factor P r x = divisor r G.
  Proof.
    intros Hb. unfold normalization_factor, divisor. destruct r eqn:Er; auto.
    - rewrite zsum_sumf, (ranks_wk P HP), sumf_map, HGs, <- count_blocks, HW by exact HL. apply (@sumf_ext Zring). intros idx Hi. apply in_range_index in Hi.
      unfold own_count. destruct (HB idx (wk P idx)) as [-> _]; [now apply wk_worker|reflexivity].
    - specialize (Hb eq_refl). rewrite zsum_sumf, (ranks_wk P HP), sumf_map, HGs.
      assert (EL : exists e L', L = e :: L').
      { pose proof HW as HW'. destruct L as [|e L']; [exfalso; apply Hb; rewrite <- HW'; reflexivity|eauto]. }
      destruct EL as (e & L' & EL). transitivity (zsum e); [|now rewrite EL].
      rewrite <- (count_batch L' e).
      + rewrite <- EL, HW. apply (@sumf_ext Zring). intros idx Hi. apply in_range_index in Hi. pose proof (wk_worker P idx HP Hi) as Hw.
        unfold own_count. rewrite (proj2 (index_in_spec P _ idx HP) Hw). destruct (HB idx (wk P idx) Hw) as [E _]. rewrite E. reflexivity.
      + pose proof HP as (_ & _ & Hp & _). rewrite <- HW, EL in Hp. cbn [layout_workers map] in Hp. now inversion Hp.
  Qed.

  (** The workers all send to the first. *)
  Lemma reduced_ok : exists gl, sum_reduce_layer P (P0 P) false false false true dt rg (reshaped f x t) (first P) = Ok gl /\
    tat gl [0] = loss_sum f G T /\
    (forall v, In v (p_ranks P) -> v <> first P ->
       exists g, sum_reduce_layer P (P0 P) false false false true dt rg (reshaped f x t) v = Ok g /\ tshape g = [1; 0]) /\
    forall dy : Z -> tensor R, (forall v, In v (p_ranks P) -> nonneg_shape (tshape (dy v)) /\ tshape (dy v) <> []) -> tshape (dy (first P)) = [1] ->
      forall v, In v (p_ranks P) -> exists d, sum_reduce_layer_backward P (P0 P) false false false true dt rg (reshaped f x t) dy v = Ok d /\ teq d (dy (first P)).
  Proof.
    destruct (C16_proof P (P0 P) false false false true dt rg (P0_rd P HP)) as (dst & D1 & _ & HC).
    assert (Hd : forall s, In s (p_ranks P) -> dst s = first P).
    { intros s Hs. specialize (D1 s Hs). rewrite P0_ranks in D1 by exact HP. destruct D1 as [<-|[]]. reflexivity. }
    assert (Hsh : forall s, In s (p_ranks P) -> tshape (reshaped f x t s) = [1]).
    { intros s Hs. destruct (worker_at_exists P s HP Hs) as [idx Hi]. apply (reshaped_ok idx s Hi). }
    assert (Hf : In (first P) (p_ranks P)) by (eapply worker_at_In, origin_first, HP).
    specialize (HC R (reshaped f x t) reshaped_shapes). cbv zeta in HC.
    destruct HC as (F1 & F2 & _ & F4); [intros s s' Hs Hs' _; now rewrite !Hsh|].
    destruct (F1 (first P)) as (gl & E & S1 & V1); [rewrite P0_ranks by exact HP; now left|].
    assert (Sg : tshape gl = [1]) by (rewrite (S1 (first P)) by auto; now apply Hsh).
    exists gl. split; [exact E|]. split; [|split].
    - rewrite V1 by (rewrite Sg; repeat constructor; lia). rewrite <- total, sumf_filter.
      apply sumf_ext. intros s Hs. now rewrite Hd, Z.eqb_refl by auto.
    - intros v Hv Hn. destruct (F2 v Hv) as (g & Eg & Sg').
      { rewrite P0_ranks by exact HP. intros [H|[]]. congruence. }
      exists g. split; [exact Eg|]. rewrite Sg'. unfold batch_of. now rewrite Hsh.
    - intros dy Hdy Hdf v Hv. destruct (F4 dy) as (B1 & _).
      + intros u Hu. assert (In u (p_ranks P)) as Hu' by (destruct Hu as [H|H]; auto; rewrite P0_ranks in H by exact HP; destruct H as [<-|[]]; exact Hf).
        destruct (Hdy u Hu'). split; auto.
      + intros d0 Hd0. rewrite P0_ranks in Hd0 by exact HP. destruct Hd0 as [<-|[]]. rewrite E. cbn [val]. congruence.
      + destruct (B1 v Hv) as (d & Ed & Qd). exists d. rewrite Hd in Qd by auto. auto.
  Qed.

  Hypothesis Hu : r = RSum -> unit_division A.
  Hypothesis Hb : r = RBatchMean -> p_shape P <> [].

  Lemma divided a : r <> RNone -> adiv A a (rint (normalization_factor P r x)) =
    match r with RNone | RSum => a | _ => adiv A a (rint (divisor r G)) end.
  Proof. intros Hn. rewrite factor_ok by exact Hb. destruct r; try congruence; auto. apply Hu; reflexivity. Qed.
End Loss.

Lemma C35_proof : C35_statement.
Proof.
  intros R A f P kl r dt rg L G T x t HD Hr Hu Hb y. pose proof HD as (HP & HL & HW & HG & HT).
  assert (Hf : In (first P) (p_ranks P)) by (eapply worker_at_In, origin_first, HP).
  assert (Hact : forall v, In v (p_ranks P) -> negb (is_active (p_ranks P) v) = false).
  { intros v Hv. apply is_active_spec in Hv. now rewrite Hv. }
  split.
  - intros Hn. destruct (reduced_ok f P dt rg L G T x t HD) as (gl & E1 & V1 & E2 & _).
    assert (Hfw : forall v, In v (p_ranks P) -> y v =
      let* g := sum_reduce_layer P (P0 P) false false false true dt rg (reshaped f x t) v in
      Ok (snd (zv_forward (if is_active (p_ranks (P0 P)) v then mkt [] (fun _ => adiv A (tat g [0]) (rint (normalization_factor P r x))) else g)))).
    { intros v Hv. unfold y, loss_forward. rewrite Hr. cbn [negb]. rewrite P0_part by exact HP. cbn [rbind]. rewrite Hact by exact Hv.
      destruct (worker_at_exists P v HP Hv) as [idx Hi]. destruct (local_ok f P L G T x t HD idx v Hi) as (l & -> & _).
      destruct r; try congruence; reflexivity. }
    split.
    + fold (first P). rewrite Hfw by exact Hf. rewrite E1. cbn [rbind]. rewrite (proj2 (P0_active P HP (first P)) eq_refl).
      eexists. split; [reflexivity|]. split; [reflexivity|]. cbn [zv_forward snd tshape zprod fold_right Z.eqb tat].
      rewrite V1, (divided A P kl r L G T x t HD Hr Hu Hb) by exact Hn. unfold sequential_loss. destruct r; reflexivity.
    + intros v Hv Hne. rewrite Hfw by exact Hv. fold (first P) in Hne. destruct (E2 v Hv Hne) as (g & -> & Sg). cbn [rbind].
      destruct (is_active (p_ranks (P0 P)) v) eqn:Ea; [apply (P0_active P HP) in Ea; congruence|].
      eexists. split; [reflexivity|]. unfold zv_forward. rewrite Sg. cbn. auto.
  - intros -> idx v Hv. unfold y, loss_forward. cbn [accepts negb]. rewrite P0_part by exact HP. cbn [rbind].
    rewrite Hact by (eapply worker_at_In; eauto). destruct HG as [_ HG], HT as [_ HT].
    destruct (HG idx v Hv) as [G1 G2], (HT idx v Hv) as [T1 T2]. unfold elementwise. rewrite G1, T1. cbn [block tshape]. rewrite zlist_eqb_refl.
    eexists. split; [reflexivity|]. split; [reflexivity|]. intros i Hi. cbn [tat block tshape] in *. rewrite G2 by now rewrite G1. rewrite T2 by now rewrite T1.
    reflexivity.
Qed.

Theorem C35_losses : C35_statement.
Proof. exact C35_proof. Qed.

Lemma C46_proof : C46_statement.
Proof.
  intros R A f df P kl r dt rg L G T x t dy HD Hr Hu Hb delivered. pose proof HD as (HP & HL & HW & HG & HT). split.
  2:{ intros Hn dL HY idx v Hv. destruct (C35_proof R A f P kl r dt rg L G T x t HD Hr Hu Hb) as [_ C]. destruct (C Hn idx v Hv) as (l & El & _).
    unfold loss_backward. rewrite El. cbn [rbind]. rewrite P0_part by exact HP. cbn [rbind]. rewrite Hn. eexists. split; [reflexivity|].
    destruct HG as [_ HG], HT as [_ HT], HY as [_ HY]. destruct (HG idx v Hv) as [G1 G2], (HT idx v Hv) as [T1 T2], (HY idx v Hv) as [Y1 Y2].
    split; [exact G1|]. intros i Hi. cbn [tat tshape block] in *. rewrite G1 in Hi.
    rewrite G2 by now rewrite G1. rewrite T2 by now rewrite T1. rewrite Y2 by now rewrite Y1. reflexivity. }
  intros Hn. set (g := tat (dy (nth 0 (p_ranks P) 0)) []). intros idx v Hv.
  assert (Hf : In (first P) (p_ranks P)) by (eapply worker_at_In, origin_first, HP).
  assert (Hv' : In v (p_ranks P)) by (eapply worker_at_In; eauto).
  assert (Hy : exists l, loss_forward A f P kl r dt rg x t v = Ok l).
  { destruct (C35_proof R A f P kl r dt rg L G T x t HD Hr Hu Hb) as [C _]. destruct (C Hn) as [(l & E & _) C2].
    destruct (Z.eq_dec v (first P)) as [->|Hne]; [eauto|]. destruct (C2 v Hv' Hne) as (l' & E' & _). eauto. }
  destruct Hy as [l El]. unfold loss_backward. rewrite El. cbn [rbind]. rewrite P0_part by exact HP. cbn [rbind].
  destruct (reduced_ok f P dt rg L G T x t HD) as (gl & E1 & V1 & E2 & B).
  set (c := loss_cotangent A f P r dt rg x t dy (P0 P)).
  assert (Ec : tshape (c (first P)) = [1] /\ tat (c (first P)) [0] = adiv A g (rint (normalization_factor P r x))).
  { unfold c, loss_cotangent. rewrite (proj2 (P0_active P HP (first P)) eq_refl). auto. }
  destruct Ec as [Ec1 Ec2].
  destruct (B c) with (v := v) as (d & Ed & Sd & Vd); auto.
  - intros u Hu'. destruct (Z.eq_dec u (first P)) as [->|Hne]; [rewrite Ec1; split; [repeat constructor; lia|discriminate]|].
    unfold c, loss_cotangent. destruct (is_active (p_ranks (P0 P)) u) eqn:Ea; [apply (P0_active P HP) in Ea; congruence|].
    destruct (E2 u Hu' Hne) as (gu & -> & Sg). unfold zv_forward, zv_backward. rewrite Sg. cbn. split; [repeat constructor; lia|discriminate].
  - fold c. rewrite Ed. cbn [rbind].
    assert (Vd' : tat d [0] = match r with RNone | RSum => g | _ => adiv A g (rint (divisor r G)) end).
    { rewrite Vd by (rewrite Sd, Ec1; repeat constructor; lia). rewrite Ec2. exact (divided A P kl r L G T x t HD Hr Hu Hb g Hn). }
    destruct HG as [_ HG], HT as [_ HT]. destruct (HG idx v Hv) as [G1 G2], (HT idx v Hv) as [T1 T2].
    exists (mkt (tshape (x v)) (fun i => rmul (tat d [0]) (df (tat (x v) i) (tat (t v) i)))).
    split; [destruct r; try congruence; reflexivity|]. split; [exact G1|]. intros i Hi. cbn [tat tshape block sequential_gradient] in *.
    rewrite G2 by auto. rewrite T2 by (rewrite T1; rewrite G1 in Hi; exact Hi). rewrite Vd'. reflexivity.
Qed.

Theorem C46_loss_gradients : C46_statement.
Proof. exact C46_proof. Qed.

(** ** Example: squared error of a 3 x 3 tensor in blocks of unequal sizes *)

Definition lP : part := mkpart 5 [7; 5; 6; 4] [2; 2].
Definition lL : layout := [[2; 1]; [1; 2]].
Definition lG : tensor Qring := @mkt Qring [3; 3] (fun i => Q2Qc (inject_Z (3 * nth 0 i 0 + nth 1 i 0))).
Definition lT : tensor Qring := @mkt Qring [3; 3] (fun i => Q2Qc (inject_Z (nth 0 i 0 * nth 1 i 0))).
Definition lf (a b : Qring) : Qring := ((a - b) * (a - b))%Qc.
Definition ldf (a b : Qring) : Qring := (Q2Qc (2 # 1) * (a - b))%Qc.

Lemma l_data : loss_data lP lL lG lT (give lP lL lG) (give lP lL lT).
Proof.
  assert (HP : part_ok lP) by (split; [repeat constructor; cbn; lia|]; split; [discriminate|]; split; [repeat constructor|reflexivity]).
  split; [exact HP|]. split; [repeat constructor; lia|]. split; [reflexivity|]. split; apply give_blocks; auto.
Qed.

Definition l_out (r : reduction) (v : Z) : option (list Z * Q) :=
  match loss_forward Qarith lf lP true r (fun _ => 0) (fun _ => false) (give lP lL lG) (give lP lL lT) v with
  | Ok l => Some (tshape l, this (tat l []))
  | Raise _ => None
  end.

(** The differences are 0 1 2 3 3 3 6 5 4: their squares sum to 109. *)
Example C35_example :
  map (l_out RSum) [7; 5; 6; 4] = [Some ([], 109 # 1); Some ([], 0 # 1); Some ([], 0 # 1); Some ([], 0 # 1)]%Q /\
  l_out RMean 7 = Some ([], (109 # 9)%Q) /\ l_out RBatchMean 7 = Some ([], (109 # 3)%Q).
Proof. vm_compute. repeat split. Qed.

Example C35_example_general :
  exists l, loss_forward Qarith lf lP true RMean (fun _ => 0) (fun _ => false) (give lP lL lG) (give lP lL lT) 7 = Ok l /\
    tshape l = [] /\ tat l [] = sequential_loss Qarith lf RMean lG lT.
Proof.
  apply (proj1 (C35_losses Qring Qarith lf lP true RMean (fun _ => 0) (fun _ => false) lL lG lT _ _ l_data eq_refl
    ltac:(discriminate) ltac:(discriminate)) ltac:(discriminate)).
Qed.

(** The gradient of the mean on worker 6, at index (1, 0): 2 (6 - 0) / 9, scaled by the
    cotangent 3 of worker 7. *)
Example C46_example :
  match loss_backward Qarith lf ldf lP true RMean (fun _ => 0) (fun _ => false) (give lP lL lG) (give lP lL lT)
          (fun v => @mkt Qring [] (fun _ => Q2Qc (inject_Z (v - 4)))) 6 with
  | Ok d => tshape d = [1; 1] /\ this (tat d [0; 0]) = (4 # 1)%Q
  | Raise _ => False
  end /\
  (* without reduction, the cotangent 8 of this element and twice 6 - 0 *)
  match loss_backward Qarith lf ldf lP true RNone (fun _ => 0) (fun _ => false) (give lP lL lG) (give lP lL lT)
          (give lP lL (@mkt Qring [3; 3] (fun i => Q2Qc (inject_Z (4 * nth 0 i 0 + nth 1 i 0))))) 6 with
  | Ok d => tshape d = [1; 1] /\ this (tat d [0; 0]) = (96 # 1)%Q
  | Raise _ => False
  end.
Proof. vm_compute. repeat split; reflexivity. Qed.

Print Assumptions C35_losses.
Print Assumptions C46_loss_gradients.
