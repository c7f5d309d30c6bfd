(** Distributed losses in machine arithmetic: C80. *)

From Coq Require Import Sorting.Permutation.
From Verif Require Import Prelude SpecIndex SpecLayout SpecPartition ModelSlicing ProofSlicing ProofDecomposition ModelPartition ProofPartition
  Ring Tensor ModelCollectives ProofCollectives PropCollectives Blocks ModelRepartition ProofRepartition PropRepartition ModelConv ProofConv
  ModelUtilities ModelBatchNorm PropBatchNorm ModelLoss PropLoss PropLinear ModelReduce SpecSum ProofReduce PropReduce ModelLossReduce.

Open Scope Z_scope.

(** The losses of all elements. *)
Definition loss_terms {R : CRing} (f : R -> R -> R) (G T : tensor R) : list (term R) :=
  map (fun i => Num (f (tat G i) (tat T i))) (indices (tshape G)).

(** Torch losses that add the losses of the elements they are given, not necessarily
    alike on all workers. *)
Definition torch_loss_by {R : CRing} (M : machine R) (f : R -> R -> R) (torch : Z -> tensor R -> tensor R -> result (tensor R)) : Prop :=
  forall v X Y, nonneg_shape (tshape X) -> tshape Y = tshape X ->
    exists l, torch v X Y = Ok l /\ tshape l = [] /\ evaluates M (loss_terms f X Y) (tat l []).

(** The number the sequential loss divides by. *)
Definition loss_divisor {R : CRing} (r : reduction) (G : tensor R) : Z :=
  match r with RMean => zprod (tshape G) | RBatchMean => nth 0 (tshape G) 0 | _ => 1 end.

Definition C80_statement : Prop :=
  forall (R : CRing) (M : machine R) red torch f back (divide : R -> Z -> R) P kl r dt rg L (G T : tensor R) (x t : Z -> tensor R),
  adds M red -> torch_loss_by M f torch -> loss_data P L G T x t -> accepts kl r = true -> (r = RBatchMean -> p_shape P <> []) ->
  let y := loss_forward_by red torch f divide P kl r dt rg x t in
  let dx dy := loss_backward_by red torch f back divide P kl r dt rg x t dy in
  let n := loss_divisor r G in
  (r <> RNone ->
     (* the first worker divides a sum of the losses of all elements, each once *)
     (exists l s, y (nth 0 (p_ranks P) 0) = Ok l /\ tshape l = [] /\ tat l [] = divide s n /\ evaluates M (loss_terms f G T) s) /\
     (* a placeholder elsewhere *)
     (forall v, In v (p_ranks P) -> v <> nth 0 (p_ranks P) 0 -> exists l, y v = Ok l /\ tshape l = [] /\ tat l [] = rzero) /\
     (* gradients do not depend on the order of additions *)
     (forall dy idx v, worker_at P idx v -> exists d, dx dy v = Ok d /\
        teq d (block L idx (mkt (tshape G) (fun i => back (divide (tat (dy (nth 0 (p_ranks P) 0)) []) n) (tat G i) (tat T i)))))) /\
  (r = RNone ->
     (forall idx v, worker_at P idx v -> exists l, y v = Ok l /\ teq l (block L idx (mkt (tshape G) (fun i => f (tat G i) (tat T i))))) /\
     (forall dL dy idx v, holds_blocks P L dL dy -> worker_at P idx v -> exists d, dx dy v = Ok d /\
        teq d (block L idx (mkt (tshape G) (fun i => back (tat dL i) (tat G i) (tat T i)))))).

(** With exact arithmetic the sum is C35's. *)
Definition C80_exact_statement : Prop :=
  forall (R : CRing) f (G T : tensor R) s, evaluates (exact_machine R) (loss_terms f G T) s <-> s = loss_sum f G T.

(** *** Proofs *)

Lemma block_points L : layout_ok L ->
  Permutation (flat_map (fun i => map (vadd (block_lo L i)) (indices (block_shape L i))) (range_index (layout_workers L))) (indices (layout_shape L)).
Proof.
  intros HL.
  assert (K : forall i y, In i (range_index (layout_workers L)) -> In y (map (vadd (block_lo L i)) (indices (block_shape L i))) ->
    valid_index (layout_workers L) i /\ in_box (block_lo L i) (block_hi L i) y /\ exists p, valid_index (block_shape L i) p /\ y = vadd (block_lo L i) p).
  { intros i y Hi Hy. apply in_range_index in Hi. apply in_map_iff in Hy as (p & <- & Hp). apply in_indices in Hp.
    split; [exact Hi|]. split; [now apply point_in_block|]. eauto. }
  apply NoDup_Permutation; [|apply indices_nodup|].
  - apply NoDup_flat_map; [apply range_index_nodup| |].
    + intros i Hi. apply in_range_index in Hi. apply NoDup_map_inj; [|apply indices_nodup]. intros p q Hp Hq E. apply in_indices in Hp, Hq.
      rewrite <- (back_point L i p), <- (back_point L i q), E by auto. reflexivity.
    + intros i j y Hi Hj Hy Hy'. destruct (K i y Hi Hy) as (V & B & _), (K j y Hj Hy') as (V' & B' & _).
      eapply layout_tiles_unique; eauto.
  - intros y. rewrite in_flat_map. split.
    + intros (i & Hi & Hy). destruct (K i y Hi Hy) as (V & B & _). apply in_indices. eapply layout_tiles_inside; eauto.
    + intros Hy. apply in_indices in Hy. destruct (layout_tiles_exists L y HL Hy) as (i & Hi & Hb). destruct (local_point L i y Hi Hb) as [H1 H2].
      exists i. split; [now apply in_range_index|]. apply in_map_iff. exists (vsub y (block_lo L i)). split; [exact H2|]. now apply in_indices.
Qed.

Lemma filter_true {A} (p : A -> bool) l : (forall a, In a l -> p a = true) -> filter p l = l.
Proof. induction l as [|a l IH]; intros H; [reflexivity|]. cbn [filter]. rewrite (H a) by now left. rewrite IH; [reflexivity|]. intros b Hb. apply H. now right. Qed.

Section Loss.
  Context {R : CRing}.
  Variables (M : machine R) (red : Z -> list Z -> list R -> list Z -> R) (torch : Z -> tensor R -> tensor R -> result (tensor R)).
  Variables (f : R -> R -> R) (P : part) (dt : Z -> Z) (rg : Z -> bool) (L : layout).
  Variables (G T : tensor R) (x t : Z -> tensor R).
  Hypothesis Hred : adds M red.
  Hypothesis Htorch : torch_loss_by M f torch.
  Hypothesis HD : loss_data P L G T x t.

  Let HP : part_ok P. Proof. apply HD. Qed.
  Let HL : layout_ok L. Proof. apply HD. Qed.
  Let HW : layout_workers L = p_shape P. Proof. apply HD. Qed.
  Let HGs : tshape G = layout_shape L. Proof. apply HD. Qed.

  Definition part_losses (idx : list Z) : list (term R) :=
    map (fun i => Num (f (tat G i) (tat T i))) (map (vadd (block_lo L idx)) (indices (block_shape L idx))).

  Lemma lr_blocks idx v : worker_at P idx v ->
    tshape (x v) = block_shape L idx /\ tshape (t v) = block_shape L idx /\
    forall i, valid_index (block_shape L idx) i -> tat (x v) i = tat G (vadd (block_lo L idx) i) /\ tat (t v) i = tat T (vadd (block_lo L idx) i).
  Proof.
    intros Hv. destruct HD as (_ & _ & _ & [_ HG] & [_ HT]). destruct (HG idx v Hv) as [G1 G2], (HT idx v Hv) as [T1 T2].
    cbn [block tshape tat] in *. split; [exact G1|]. split; [exact T1|]. intros i Hi. split; [apply G2; now rewrite G1|apply T2; now rewrite T1].
  Qed.
  Lemma lr_local idx v : worker_at P idx v -> exists l, torch v (x v) (t v) = Ok l /\ evaluates M (part_losses idx) (tat l []).
  Proof.
    intros Hv. destruct (lr_blocks idx v Hv) as (E1 & E2 & E3).
    destruct (Htorch v (x v) (t v)) as (l & El & _ & V); [rewrite E1; now apply block_shape_nonneg|congruence|].
    exists l. split; [exact El|]. unfold part_losses. rewrite map_map. unfold loss_terms in V. rewrite E1 in V.
    erewrite map_ext_in in V; [exact V|]. intros i Hi. apply in_indices in Hi. cbv beta. destruct (E3 i Hi) as [-> ->]. reflexivity.
  Qed.
  Lemma lr_reshaped idx v : worker_at P idx v -> tshape (reshaped_by torch x t v) = [1] /\
    forall i, evaluates M (part_losses idx) (tat (reshaped_by torch x t v) i).
  Proof.
    intros Hv. destruct (lr_local idx v Hv) as (l & E & V). unfold reshaped_by. rewrite E. split; [reflexivity|]. intros i. exact V.
  Qed.
  Lemma lr_shapes : shapes_ok P (P0 P) true (reshaped_by torch x t).
  Proof.
    intros v Hv. assert (Hv' : In v (p_ranks P)).
    { destruct Hv as [H|H]; auto. rewrite P0_ranks in H by exact HP. destruct H as [<-|[]]. eapply worker_at_In, origin_first, HP. }
    destruct (worker_at_exists P v HP Hv') as [idx Hi]. destruct (lr_reshaped idx v Hi) as [-> _]. split; [repeat constructor; lia|discriminate].
  Qed.

  (** The first worker receives all contributions. *)
  Lemma lr_total s : evaluates M (map (fun v => Num (tat (reshaped_by torch x t v) [0])) (p_ranks P)) s -> evaluates M (loss_terms f G T) s.
  Proof.
    rewrite (ranks_wk P HP), map_map. intros E.
    pose proof (evaluates_parts M (range_index (p_shape P)) part_losses (fun i => tat (reshaped_by torch x t (wk P i)) [0]) s) as K.
    eapply ev_order; [|apply K; [|exact E]].
    - unfold loss_terms, part_losses. rewrite HGs. pose proof (block_points L HL) as B. rewrite HW in B.
      apply (Permutation_map (fun i => Num (f (tat G i) (tat T i)))) in B. rewrite <- B.
      rewrite !flat_map_concat_map, concat_map, map_map. reflexivity.
    - intros i Hi. apply in_range_index in Hi. apply lr_reshaped. now apply wk_worker.
  Qed.
  Lemma lr_reduced : exists gl, loss_reduced_by red torch P dt rg x t (P0 P) (first P) = Ok gl /\
    evaluates M (loss_terms f G T) (tat gl [0]) /\
    (forall v, In v (p_ranks P) -> v <> first P -> exists g, loss_reduced_by red torch P dt rg x t (P0 P) v = Ok g /\ tshape g = [1; 0]) /\
    forall dy : Z -> tensor R, (forall v, In v (p_ranks P) -> nonneg_shape (tshape (dy v)) /\ tshape (dy v) <> []) -> tshape (dy (first P)) = [1] ->
      forall v, In v (p_ranks P) -> exists d, sum_reduce_layer_backward P (P0 P) false false false true dt rg (reshaped_by torch x t) dy v = Ok d /\ teq d (dy (first P)).
  Proof.
    assert (Hf : In (first P) (p_ranks P)) by (eapply worker_at_In, origin_first, HP).
    assert (Hsh : forall s, In s (p_ranks P) -> tshape (reshaped_by torch x t s) = [1]).
    { intros s Hs. destruct (worker_at_exists P s HP Hs) as [idx Hi]. apply (lr_reshaped idx s Hi). }
    destruct (C61_sum_reduce_proof P (P0 P) false false false true dt rg (P0_rd P HP)) as (dst & D1 & _ & HC).
    assert (Hd : forall s, In s (p_ranks P) -> dst s = first P).
    { intros s Hs. specialize (D1 s Hs). rewrite P0_ranks in D1 by exact HP. destruct D1 as [<-|[]]. reflexivity. }
    destruct (HC R M red (reshaped_by torch x t) Hred lr_shapes) as (F1 & F2 & _); [intros s s' Hs Hs' _; now rewrite !Hsh|].
    destruct (F1 (first P)) as (gl & E & S1 & V1); [rewrite P0_ranks by exact HP; now left|].
    exists gl. split; [exact E|]. split; [|split].
    - apply lr_total. specialize (V1 [0]). rewrite filter_true in V1; [exact V1|]. intros s Hs. now rewrite Hd, Z.eqb_refl.
    - intros v Hv Hn. destruct (F2 v Hv) as (g & Eg & Sg').
      { rewrite P0_ranks by exact HP. intros [H|[]]. congruence. }
      exists g. split; [exact Eg|]. rewrite Sg'. unfold batch_of. now rewrite Hsh.
    - clear dst D1 HC Hd F1 F2 gl E S1 V1.
      destruct (C16_proof P (P0 P) false false false true dt rg (P0_rd P HP)) as (dst & D1 & _ & HC).
      assert (Hd : forall s, In s (p_ranks P) -> dst s = first P).
      { intros s Hs. specialize (D1 s Hs). rewrite P0_ranks in D1 by exact HP. destruct D1 as [<-|[]]. reflexivity. }
      specialize (HC R (reshaped_by torch x t) lr_shapes). cbv zeta in HC.
      destruct HC as (F1 & _ & _ & F4); [intros s s' Hs Hs' _; now rewrite !Hsh|].
      destruct (F1 (first P)) as (gl & E & S1 & _); [rewrite P0_ranks by exact HP; now left|].
      assert (Sg : tshape gl = [1]) by (rewrite (S1 (first P)) by auto; now apply Hsh).
      intros dy Hdy Hdf v Hv. destruct (F4 dy) as (B1 & _).
      + intros u Hu. assert (In u (p_ranks P)) as Hu' by (destruct Hu as [H|H]; auto; rewrite P0_ranks in H by exact HP; destruct H as [<-|[]]; exact Hf).
        destruct (Hdy u Hu'). split; auto.
      + intros d0 Hd0. rewrite P0_ranks in Hd0 by exact HP. destruct Hd0 as [<-|[]]. rewrite E. cbn [val]. congruence.
      + destruct (B1 v Hv) as (d & Ed & Qd). exists d. rewrite Hd in Qd by auto. auto.
  Qed.
End Loss.

Lemma C80_proof : C80_statement.
Proof.
  intros R M red torch f back divide P kl r dt rg L G T x t Hred Htorch HD Hr Hb y dx n. pose proof HD as (HP & HL & HW & HG & HT).
  assert (Hf : In (first P) (p_ranks P)) by (eapply worker_at_In, origin_first, HP).
  assert (Hact : forall v, In v (p_ranks P) -> negb (is_active (p_ranks P) v) = false).
  { intros v Hv. apply is_active_spec in Hv. now rewrite Hv. }
  assert (Hn' : normalization_factor P r x = n) by exact (factor_ok P kl r L G T x t HD Hr Hb).
  split.
  - intros Hn. destruct (lr_reduced M red torch f P dt rg L G T x t Hred Htorch HD) as (gl & E1 & V1 & E2 & B).
    assert (Hfw : forall v, In v (p_ranks P) -> y v =
      let* g := loss_reduced_by red torch P dt rg x t (P0 P) v in
      Ok (snd (zv_forward (if is_active (p_ranks (P0 P)) v then mkt [] (fun _ => divide (tat g [0]) n) else g)))).
    { intros v Hv. unfold y, loss_forward_by. rewrite Hr. cbn [negb]. rewrite P0_part by exact HP. cbn [rbind]. rewrite Hact by exact Hv.
      destruct (worker_at_exists P v HP Hv) as [idx Hi]. destruct (lr_local M torch f P L G T x t Htorch HD idx v Hi) as (l & -> & _).
      rewrite Hn'. destruct r; try congruence; reflexivity. }
    assert (Y1 : exists l s, y (first P) = Ok l /\ tshape l = [] /\ tat l [] = divide s n /\ evaluates M (loss_terms f G T) s).
    { rewrite Hfw by exact Hf. rewrite E1. cbn [rbind]. rewrite (proj2 (P0_active P HP (first P)) eq_refl).
      eexists. exists (tat gl [0]). split; [reflexivity|]. split; [reflexivity|]. split; [reflexivity|exact V1]. }
    assert (Y2 : forall v, In v (p_ranks P) -> v <> first P -> exists l, y v = Ok l /\ tshape l = [] /\ tat l [] = rzero).
    { intros v Hv Hne. rewrite Hfw by exact Hv. destruct (E2 v Hv Hne) as (g & -> & Sg). cbn [rbind].
      destruct (is_active (p_ranks (P0 P)) v) eqn:Ea; [apply (P0_active P HP) in Ea; congruence|].
      eexists. split; [reflexivity|]. unfold zv_forward. rewrite Sg. cbn. auto. }
    split; [exact Y1|]. split; [exact Y2|]. intros dy idx v Hv. fold (first P). assert (Hv' : In v (p_ranks P)) by (eapply worker_at_In; eauto).
    assert (Hy : exists l, y v = Ok l).
    { destruct (Z.eq_dec v (first P)) as [->|Hne]; [destruct Y1 as (l & _ & E & _); eauto|]. destruct (Y2 v Hv' Hne) as (l' & E' & _). eauto. }
    destruct Hy as [l El]. unfold dx, loss_backward_by. fold y. rewrite El. cbn [rbind]. rewrite P0_part by exact HP. cbn [rbind].
    set (c := loss_cotangent_by red torch divide P r dt rg x t dy (P0 P)).
    assert (Ec : tshape (c (first P)) = [1] /\ tat (c (first P)) [0] = divide (tat (dy (first P)) []) n).
    { unfold c, loss_cotangent_by. rewrite (proj2 (P0_active P HP (first P)) eq_refl), Hn'. auto. }
    destruct Ec as [Ec1 Ec2].
    destruct (B c) with (v := v) as (d & Ed & Sd & Vd); auto.
    { intros u Hu'. destruct (Z.eq_dec u (first P)) as [->|Hne]; [rewrite Ec1; split; [repeat constructor; lia|discriminate]|].
      unfold c, loss_cotangent_by. destruct (is_active (p_ranks (P0 P)) u) eqn:Ea; [apply (P0_active P HP) in Ea; congruence|].
      destruct (E2 u Hu' Hne) as (gu & -> & Sg). unfold zv_forward, zv_backward. rewrite Sg. cbn. split; [repeat constructor; lia|discriminate]. }
    rewrite Ed. cbn [rbind]. exists (mkt (tshape (x v)) (fun i => back (tat d [0]) (tat (x v) i) (tat (t v) i))).
    split; [destruct r; try congruence; reflexivity|]. destruct (lr_blocks P L G T x t HD idx v Hv) as (G1 & _ & G2).
    split; [exact G1|]. intros i Hi. cbn [tat tshape block] in *. rewrite G1 in Hi. destruct (G2 i Hi) as [-> ->].
    rewrite Vd, Ec2 by (rewrite Sd, Ec1; repeat constructor; lia). reflexivity.
  - intros Hn.
    assert (Y : forall idx v, worker_at P idx v -> exists l, y v = Ok l /\ teq l (block L idx (mkt (tshape G) (fun i => f (tat G i) (tat T i))))).
    { intros idx v Hv. destruct (lr_blocks P L G T x t HD idx v Hv) as (G1 & T1 & G2). unfold y, loss_forward_by. rewrite Hr. cbn [negb].
      rewrite P0_part by exact HP. cbn [rbind]. rewrite Hact, Hn by (eapply worker_at_In; eauto). unfold elementwise. rewrite G1, T1, zlist_eqb_refl.
      eexists. split; [reflexivity|]. split; [reflexivity|]. intros i Hi. cbn [tat block tshape] in *. destruct (G2 i Hi) as [-> ->]. reflexivity. }
    split; [exact Y|]. intros dL dy idx v HY Hv. destruct (Y idx v Hv) as (l & El & _). destruct (lr_blocks P L G T x t HD idx v Hv) as (G1 & T1 & G2).
    unfold dx, loss_backward_by. fold y. rewrite El. cbn [rbind]. rewrite P0_part by exact HP. cbn [rbind]. rewrite Hn. eexists. split; [reflexivity|].
    destruct HY as [_ HY]. destruct (HY idx v Hv) as [Y1 Y2]. split; [exact G1|]. intros i Hi. cbn [tat tshape block] in *. rewrite G1 in Hi.
    destruct (G2 i Hi) as [-> ->]. rewrite Y2 by now rewrite Y1. reflexivity.
Qed.

Lemma C80_exact_proof : C80_exact_statement.
Proof.
  intros R f G T s. unfold loss_sum.
  assert (E : sumf (loss_terms f G T) exact_term = sumf (indices (tshape G)) (fun i => f (tat G i) (tat T i))) by (unfold loss_terms; now rewrite sumf_map).
  rewrite <- E. apply C61_exact_proof.
Qed.

Theorem C80_losses : C80_statement.
Proof. exact C80_proof. Qed.
Theorem C80_exact : C80_exact_statement.
Proof. exact C80_exact_proof. Qed.

(** ** Example: squared errors of a 3 x 3 tensor in blocks of unequal sizes, in the
    arithmetic of C61's: sums of at least 256 lose digits. *)
Definition lr_G : tensor Zring := @mkt Zring [3; 3] (fun i => 9 * nth 0 i 0 + 5 * nth 1 i 0).
Definition lr_T : tensor Zring := @mkt Zring [3; 3] (fun i => nth 0 i 0 * nth 1 i 0).
Definition lr_f (a b : Zring) : Zring := (a - b) * (a - b).
Definition lr_back (g a b : Zring) : Zring := g * (2 * (a - b)).
Definition lr_torch (v : Z) (X Y : tensor Zring) : result (tensor Zring) :=
  Ok (@mkt Zring [] (fun _ => alternate_terms ex61_M v (loss_terms lr_f X Y))).

Lemma lr_torch_ok : torch_loss_by ex61_M lr_f lr_torch.
Proof. intros v X Y _ _. eexists. split; [reflexivity|]. split; [reflexivity|]. apply alternate_terms_ok. Qed.
Lemma lr_data : loss_data lP lL lr_G lr_T (give lP lL lr_G) (give lP lL lr_T).
Proof.
  assert (HP : part_ok lP) by apply l_data.
  split; [exact HP|]. split; [repeat constructor; lia|]. split; [reflexivity|]. split; apply give_blocks; auto.
Qed.

Definition lr_out (r : reduction) (v : Z) : option (list Z * Z) :=
  match loss_forward_by (alternate ex61_M) lr_torch lr_f Z.div lP true r (fun _ => 0) (fun _ => false) (give lP lL lr_G) (give lP lL lr_T) v with
  | Ok l => Some (tshape l, tat l [])
  | Raise _ => None
  end.

(** The exact sum is 2005. *)
Example C80_example :
  adds ex61_M (alternate ex61_M) /\ torch_loss_by ex61_M lr_f lr_torch /\ loss_data lP lL lr_G lr_T (give lP lL lr_G) (give lP lL lr_T) /\
  loss_sum lr_f lr_G lr_T = 2005 /\
  map (lr_out RSum) [7; 5; 6; 4] = [Some ([], 1968); Some ([], 0); Some ([], 0); Some ([], 0)] /\
  lr_out RMean 7 = Some ([], 218) /\ lr_out RBatchMean 7 = Some ([], 656) /\
  (* the gradient 2 (18 - 0) 27 / 9 on worker 6 for the cotangent 27 on worker 7 *)
  match loss_backward_by (alternate ex61_M) lr_torch lr_f lr_back Z.div lP true RMean (fun _ => 0) (fun _ => false) (give lP lL lr_G) (give lP lL lr_T)
          (fun v => @mkt Zring [] (fun _ => 27 + 2 * (v - 7))) 6 with
  | Ok d => tshape d = [1; 1] /\ tat d [0; 0] = 108
  | Raise _ => False
  end.
Proof.
  split; [apply alternate_adds|]. split; [exact lr_torch_ok|]. split; [exact lr_data|]. 
  split; [vm_compute; reflexivity|]. split; [vm_compute; reflexivity|]. split; [vm_compute; reflexivity|]. split; [vm_compute; reflexivity|].
  vm_compute. split; reflexivity.
Qed.

Print Assumptions C80_losses.
Print Assumptions C80_exact.
