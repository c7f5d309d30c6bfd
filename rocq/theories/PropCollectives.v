(** Broadcast, SumReduce and AllSumReduce: C14, C15, C16, C17 and the values
    part of C40. *)

From Coq Require Import Sorting.Permutation.
From Verif Require Import Prelude ModelSlicing ModelPartition ModelCollectives SpecIndex SpecPartition
  ProofSlicing ProofPartition PropPartition Ring Tensor ProofCollectives.

(** Partitions accepted by the broadcast rules; [same] is true only if the two
    are the same partition. *)
Definition bc_accepted (Ps Pd : part) (ts td same : bool) : Prop :=
  part_ok Ps /\ part_ok Pd /\ p_root Ps = p_root Pd /\
  bc_compatible (flip ts (p_shape Ps)) (flip td (p_shape Pd)) /\
  (same = true -> Ps = Pd).

(** The flags for which the pairing is the documented one (see C08). *)
Definition bc_flags (Ps : part) (ts td : bool) : Prop :=
  ts = td \/ at_most_one_nontrivial (p_shape Ps).

Definition shapes_ok {R} (Px Py : part) (pb : bool) (x : Z -> tensor R) : Prop :=
  forall v, In v (p_ranks Px) \/ In v (p_ranks Py) ->
  nonneg_shape (tshape (x v)) /\ (pb = true -> tshape (x v) <> []).

Definition val {R} (r : result (tensor R)) : tensor R :=
  match r with Ok t => t | Raise _ => tzeros [] end.

(** A zero-volume tensor, of the given batch size when it is preserved. *)
Definition zero_vol {R} (pb : bool) (batch : Z) (r : result (tensor R)) : Prop :=
  exists t, r = Ok t /\ tshape t = if pb then [batch; 0] else [0].

Definition batch_of {R} (t : tensor R) : Z := hd 0 (tshape t).

(** ** C14 *)

Definition C14_statement : Prop :=
  forall (R : CRing) Px Py (same ts td pb : bool) dt rg (x : Z -> tensor R),
  bc_accepted Px Py ts td same -> bc_flags Px ts td -> shapes_ok Px Py pb x ->
  let y := broadcast_layer Px Py same ts td pb dt rg x in
  (forall d, In d (p_ranks Py) ->
     (exists s, paired Px Py ts td s d) /\
     forall s, paired Px Py ts td s d -> exists t, y d = Ok t /\ teq t (x s)) /\
  (forall v, In v (p_ranks Px) -> ~ In v (p_ranks Py) -> zero_vol pb (batch_of (x v)) (y v)) /\
  (forall v, ~ In v (p_ranks Px) -> ~ In v (p_ranks Py) -> y v = Ok (x v)).

Lemma active_or P Q v : In v (p_ranks P) \/ In v (p_ranks Q) ->
  negb (is_active (p_ranks P) v || is_active (p_ranks Q) v) = false.
Proof.
  intros [H|H]; apply is_active_spec in H; rewrite H; auto. now rewrite orb_true_r.
Qed.

Lemma inactive_or P Q v : ~ In v (p_ranks P) -> ~ In v (p_ranks Q) ->
  negb (is_active (p_ranks P) v || is_active (p_ranks Q) v) = true.
Proof. intros H1 H2. apply is_active_false in H1, H2. now rewrite H1, H2. Qed.

Lemma identity_active same P ts td v : is_identity same P ts td v = true -> In v (p_ranks P).
Proof.
  unfold is_identity. intros H. apply andb_true_iff in H as [H _].
  apply andb_true_iff in H as [_ H]. now apply is_active_spec.
Qed.

Lemma identity_same same P ts td v : is_identity same P ts td v = true -> same = true.
Proof.
  unfold is_identity. intros H. apply andb_true_iff in H as [H _].
  now apply andb_true_iff in H as [H _].
Qed.

(** What a source or destination worker holds after the forward pass. *)
Lemma broadcast_layer_dest R Px Py same ts td pb dt rg (x : Z -> tensor R) d :
  bc_accepted Px Py ts td same -> shapes_ok Px Py pb x -> In d (p_ranks Py) ->
  broadcast_layer Px Py same ts td pb dt rg x d = Ok (x (csrc Px Py ts td d)).
Proof.
  intros (H1 & H2 & HR & HC & HS) HX Hd. unfold broadcast_layer, layer_forward.
  destruct (is_identity same Px ts td d) eqn:I.
  { pose proof (identity_same _ _ _ _ _ I) as E. specialize (HS E). subst Py.
    destruct (identity_csrc same Px ts td d H1 I HC) as (Hid & _). now rewrite Hid. }
  rewrite active_or by auto.
  pose proof (broadcast_cross_wf Px Py ts td H1 H2 HR HC) as W.
  destruct (runs_ok Px Py ts td H1 H2 HR HC d) as [c ->]. cbn [rbind].
  destruct (csrc_spec Px Py ts td H1 H2 HC d Hd) as [Hs _].
  destruct (bc_shape _ _ _ _ _ W (structs_of dt rg x) d Hd) as (o & Ho & So).
  { apply HX. auto. }
  rewrite Ho. cbn [rbind].
  apply (broadcast_forward_leaf _ _ _ _ _ W); auto.
  - intros E. now apply HX; auto.
  - unfold out_structs. rewrite Ho. cbn [shape_of_struct]. rewrite So. reflexivity.
Qed.

(** On a worker that only sends, the structure exchange returns nothing. *)
Lemma structure_not_receiving st snd rcv v : rcv v = None ->
  broadcast_tensor_structure st snd rcv v = Ok None.
Proof. intros E. unfold broadcast_tensor_structure. now rewrite E. Qed.

Lemma broadcast_layer_other R Px Py same ts td pb dt rg (x : Z -> tensor R) v :
  bc_accepted Px Py ts td same -> shapes_ok Px Py pb x ->
  In v (p_ranks Px) -> ~ In v (p_ranks Py) ->
  zero_vol pb (batch_of (x v)) (broadcast_layer Px Py same ts td pb dt rg x v).
Proof.
  intros (H1 & H2 & HR & HC & HS) HX Hv Hn. unfold broadcast_layer, layer_forward.
  destruct (is_identity same Px ts td v) eqn:I.
  { pose proof (identity_same _ _ _ _ _ I) as E. specialize (HS E). subst Py. contradiction. }
  rewrite active_or by auto.
  pose proof (broadcast_cross_wf Px Py ts td H1 H2 HR HC) as W.
  destruct (runs_ok Px Py ts td H1 H2 HR HC v) as [c ->]. cbn [rbind].
  rewrite structure_not_receiving by now apply (cw_leaf_none _ _ _ _ _ W). cbn [rbind].
  rewrite (broadcast_forward_none _ _ _ _ _ W) by auto.
  apply zero_volume_ok. now apply HX; auto.
Qed.

Lemma layer_forward_outside R create Px Py same ts td pb dt rg fn (x : Z -> tensor R) v :
  ~ In v (p_ranks Px) -> ~ In v (p_ranks Py) ->
  layer_forward create Px Py same ts td pb dt rg fn x v = Ok (x v).
Proof.
  intros H1 H2. unfold layer_forward. destruct (is_identity same Px ts td v); auto.
  now rewrite inactive_or.
Qed.

Lemma C14_proof : C14_statement.
Proof.
  intros R Px Py same ts td pb dt rg x HA HF HX y.
  destruct HA as (H1 & H2 & HR & HC & HS).
  assert (HA : bc_accepted Px Py ts td same) by (unfold bc_accepted; auto).
  split; [|split].
  - intros d Hd. split.
    + exists (csrc Px Py ts td d). apply csrc_paired; auto.
    + intros s Hp. apply csrc_paired in Hp; auto. subst s.
      eexists. split; [apply broadcast_layer_dest; auto|apply teq_refl].
  - intros v Hv Hn. now apply broadcast_layer_other.
  - intros v Hx Hy. now apply layer_forward_outside.
Qed.

Theorem C14_broadcast_delivers : C14_statement.
Proof. exact C14_proof. Qed.

(** Worker 2 is source and destination of different groups: it holds a 2x1 input
    [20+i] and receives worker 0's input of another shape. *)
Definition ex14_x (v : Z) : tensor Zring :=
  @mkt Zring (if v =? 0 then [2; 2] else [2; 1]) (fun i => 10 * v + row_major [2; 2] i).

Example C14_example :
  bc_accepted ex_src ex_dst false false false /\ bc_flags ex_src false false /\
  shapes_ok ex_src ex_dst true ex14_x /\
  let y := broadcast_layer ex_src ex_dst false false false true (fun _ => 0) (fun _ => true) ex14_x in
  tshape (val (y 2)) = [2; 2] /\ tat (val (y 2)) [1; 1] = 3 /\
  tshape (val (y 6)) = [2; 1] /\ tat (val (y 6)) [1; 0] = 12 /\
  tshape (val (y 0)) = [2; 0].
Proof.
  split; [|split; [|split]].
  - split; [|split; [|split; [|split]]]; auto.
    + repeat split; try discriminate; repeat constructor; simpl; lia.
    + repeat split; try discriminate; repeat constructor; simpl; lia.
    + split; [simpl; lia|]. repeat constructor; auto.
    + discriminate.
  - now left.
  - intros v _. unfold ex14_x. cbn [tshape]. destruct (v =? 0); split; try discriminate;
      repeat constructor; lia.
  - vm_compute. auto.
Qed.

Print Assumptions C14_broadcast_delivers.

(** ** C15 *)

(** [src d] is the worker whose tensor [d] received. *)
Definition C15_statement : Prop :=
  forall Px Py (same ts td pb : bool) dt rg,
  bc_accepted Px Py ts td same ->
  exists src : Z -> Z,
  (forall d, In d (p_ranks Py) -> In (src d) (p_ranks Px)) /\
  (bc_flags Px ts td -> forall d, In d (p_ranks Py) -> paired Px Py ts td (src d) d) /\
  forall (R : CRing) (x dy : Z -> tensor R),
  let y := broadcast_layer Px Py same ts td pb dt rg x in
  let dx := broadcast_layer_backward Px Py same ts td pb dt rg x dy in
  shapes_ok Px Py pb x -> shapes_ok Px Py pb dy ->
  (forall d, In d (p_ranks Py) -> tshape (dy d) = tshape (val (y d))) ->
  (* forward moved x (src d) to d *)
  (forall d, In d (p_ranks Py) -> exists t, y d = Ok t /\ teq t (x (src d))) /\
  (* backward sums exactly the cotangents of the workers that received x s *)
  (forall s, In s (p_ranks Px) -> exists t, dx s = Ok t /\ tshape t = tshape (x s) /\
     forall i, valid_index (tshape (x s)) i ->
       tat t i = sumf (filter (fun d => src d =? s) (p_ranks Py)) (fun d => tat (dy d) i)) /\
  (forall v, ~ In v (p_ranks Px) -> In v (p_ranks Py) -> zero_vol pb (batch_of (dy v)) (dx v)) /\
  (* adjointness *)
  sumf (p_ranks Py) (fun d => inner (val (y d)) (dy d)) =
  sumf (p_ranks Px) (fun s => inner (x s) (val (dx s))).

Lemma identity_sum_self (R : CRing) P src (dy : Z -> tensor R) s i :
  NoDup (p_ranks P) -> In s (p_ranks P) -> (forall d, In d (p_ranks P) -> src d = d) ->
  tat (dy s) i = sumf (filter (fun d => src d =? s) (p_ranks P)) (fun d => tat (dy d) i).
Proof.
  intros HN Hs Hid. rewrite (sumf_single _ _ s); auto.
  - now apply NoDup_filter.
  - apply filter_In. rewrite Hid by auto. split; auto. apply Z.eqb_refl.
  - intros j Hj Hn. apply filter_In in Hj as [J1 J2]. rewrite Hid in J2 by auto.
    apply Z.eqb_eq in J2. congruence.
Qed.

Lemma C15_proof : C15_statement.
Proof.
  intros Px Py same ts td pb dt rg HA. exists (csrc Px Py ts td).
  destruct HA as (H1 & H2 & HR & HC & HS).
  assert (HA : bc_accepted Px Py ts td same) by (unfold bc_accepted; auto).
  assert (Hsrc : forall d, In d (p_ranks Py) -> In (csrc Px Py ts td d) (p_ranks Px))
    by (intros; now apply csrc_spec).
  split; auto. split.
  { intros HF d Hd. apply csrc_paired; auto. }
  intros R x dy y dx HX HDY Hdy.
  pose proof (broadcast_cross_wf Px Py ts td H1 H2 HR HC) as W.
  assert (Hy : forall d, In d (p_ranks Py) -> y d = Ok (x (csrc Px Py ts td d)))
    by (intros; now apply broadcast_layer_dest).
  assert (Hdy' : forall d, In d (p_ranks Py) -> tshape (dy d) = tshape (x (csrc Px Py ts td d)))
    by (intros d Hd; rewrite Hdy, Hy by auto; reflexivity).
  assert (Hdx : forall s, In s (p_ranks Px) -> exists t, dx s = Ok t /\ tshape t = tshape (x s) /\
     forall i, valid_index (tshape (x s)) i -> tat t i = leaf_sum (p_ranks Py) (csrc Px Py ts td) dy s i).
  { intros s Hs. unfold dx, broadcast_layer_backward, layer_backward.
    destruct (is_identity same Px ts td s) eqn:I.
    { pose proof (identity_same _ _ _ _ _ I) as E. pose proof (HS E). subst Py.
      destruct (identity_csrc same Px ts td s H1 I HC) as (Hid & _).
      eexists. split; [reflexivity|]. split; [rewrite Hdy', Hid; auto|].
      intros i _. apply identity_sum_self; auto. apply H1. }
    rewrite active_or by auto. destruct (runs_ok Px Py ts td H1 H2 HR HC s) as [c ->]. cbn [rbind].
    destruct (broadcast_backward_root _ _ _ _ _ W pb (fun u => tshape (x u))
      (out_structs (create_broadcast_partition_to Px Py ts td) (structs_of dt rg x)) dy s (tshape (x s)))
      as (t & Et & T1 & T2); auto.
    - intros E. now apply HDY; auto.
    - intros d Hd <-. auto.
    - intros Hd Es. unfold out_structs.
      destruct (bc_shape _ _ _ _ _ W (structs_of dt rg x) s Hd) as (o & -> & So).
      { rewrite Es. apply HX. auto. }
      cbn [shape_of_struct]. rewrite So, Es. reflexivity.
    - exists t. auto. }
  split; [|split; [|split]].
  - intros d Hd. rewrite Hy by auto. eexists. split; [reflexivity|apply teq_refl].
  - intros s Hs. destruct (Hdx s Hs) as (t & T). exists t. exact T.
  - intros v Hx Hv. unfold dx, broadcast_layer_backward, layer_backward.
    destruct (is_identity same Px ts td v) eqn:I; [now apply identity_active in I|].
    rewrite active_or by auto. destruct (runs_ok Px Py ts td H1 H2 HR HC v) as [c ->]. cbn [rbind].
    rewrite (broadcast_backward_none _ _ _ _ _ W) by auto. apply zero_volume_ok. now apply HDY; auto.
  - apply (cross_adjoint _ _ _ _ _ W x dy (fun d => val (y d)) (fun s => val (dx s))).
    + intros d Hd. rewrite Hy by auto. apply teq_refl.
    + intros d Hd. now apply Hdy'.
    + intros s Hs. destruct (Hdx s Hs) as (t & -> & T1 & T2). auto.
Qed.

Theorem C15_broadcast_adjoint : C15_statement.
Proof. exact C15_proof. Qed.

(** Cotangents of the same shapes; source worker 0 receives the sum over
    destinations 2 and 5. *)
Definition ex15_dy (v : Z) : tensor Zring :=
  @mkt Zring (if (v =? 2) || (v =? 5) then [2; 2] else [2; 1]) (fun i => 100 * v + row_major [2; 2] i).

Example C15_example :
  shapes_ok ex_src ex_dst true ex14_x /\ shapes_ok ex_src ex_dst true ex15_dy /\
  let y := broadcast_layer ex_src ex_dst false false false true (fun _ => 0) (fun _ => true) ex14_x in
  let dx := broadcast_layer_backward ex_src ex_dst false false false true (fun _ => 0) (fun _ => true)
              ex14_x ex15_dy in
  (forall d, In d (p_ranks ex_dst) -> tshape (ex15_dy d) = tshape (val (y d))) /\
  tat (val (dx 0)) [1; 0] = 200 + 500 + 4 /\
  sumf (R := Zring) (p_ranks ex_dst) (fun d => inner (val (y d)) (ex15_dy d)) = 70364 /\
  sumf (R := Zring) (p_ranks ex_src) (fun s => inner (ex14_x s) (val (dx s))) = 70364.
Proof.
  split; [|split].
  - intros v _. unfold ex14_x. cbn [tshape]. destruct (v =? 0); split; try discriminate;
      repeat constructor; lia.
  - intros v _. unfold ex15_dy. cbn [tshape]. destruct ((v =? 2) || (v =? 5)); split; try discriminate;
      repeat constructor; lia.
  - split; [|vm_compute; auto].
    intros d Hd. simpl in Hd. intuition; subst; reflexivity.
Qed.

Print Assumptions C15_broadcast_adjoint.

(** ** C16 *)

(** Partitions accepted by the reduction rules: those of the broadcast from the
    destination to the source. *)
Definition rd_accepted (Px Py : part) (ts td same : bool) : Prop :=
  part_ok Px /\ part_ok Py /\ p_root Px = p_root Py /\
  bc_compatible (flip td (p_shape Py)) (flip ts (p_shape Px)) /\
  (same = true -> Px = Py).

(** [dst s] is the worker that receives source [s]'s contribution. *)
Definition C16_statement : Prop :=
  forall Px Py (same ts td pb : bool) dt rg,
  rd_accepted Px Py ts td same ->
  exists dst : Z -> Z,
  (forall s, In s (p_ranks Px) -> In (dst s) (p_ranks Py)) /\
  (bc_flags Py ts td -> forall s d, In s (p_ranks Px) -> (paired Py Px td ts d s <-> d = dst s)) /\
  forall (R : CRing) (x : Z -> tensor R),
  let y := sum_reduce_layer Px Py same ts td pb dt rg x in
  shapes_ok Px Py pb x ->
  (forall s s', In s (p_ranks Px) -> In s' (p_ranks Px) -> dst s = dst s' ->
     tshape (x s) = tshape (x s')) ->
  (* forward: the sum over exactly the sources of d, each once *)
  (forall d, In d (p_ranks Py) -> exists t, y d = Ok t /\
     (forall s, In s (p_ranks Px) -> dst s = d -> tshape t = tshape (x s)) /\
     forall i, valid_index (tshape t) i ->
       tat t i = sumf (filter (fun s => dst s =? d) (p_ranks Px)) (fun s => tat (x s) i)) /\
  (forall v, In v (p_ranks Px) -> ~ In v (p_ranks Py) -> zero_vol pb (batch_of (x v)) (y v)) /\
  (forall v, ~ In v (p_ranks Px) -> ~ In v (p_ranks Py) -> y v = Ok (x v)) /\
  forall dy : Z -> tensor R,
  let dx := sum_reduce_layer_backward Px Py same ts td pb dt rg x dy in
  shapes_ok Px Py pb dy ->
  (forall d, In d (p_ranks Py) -> tshape (dy d) = tshape (val (y d))) ->
  (* backward: every source gets its destination's cotangent *)
  (forall s, In s (p_ranks Px) -> exists t, dx s = Ok t /\ teq t (dy (dst s))) /\
  (forall v, ~ In v (p_ranks Px) -> In v (p_ranks Py) -> zero_vol pb (batch_of (dy v)) (dx v)) /\
  sumf (p_ranks Py) (fun d => inner (val (y d)) (dy d)) =
  sumf (p_ranks Px) (fun s => inner (x s) (val (dx s))).

Lemma identity_flags same P ts td v : is_identity same P ts td v = is_identity same P td ts v.
Proof. unfold is_identity. now destruct ts, td. Qed.

(** What each worker holds after the forward pass. *)
Lemma sum_reduce_layer_dest R Px Py same ts td pb dt rg (x : Z -> tensor R) d :
  rd_accepted Px Py ts td same -> shapes_ok Px Py pb x ->
  (forall s s', In s (p_ranks Px) -> In s' (p_ranks Px) ->
     csrc Py Px td ts s = csrc Py Px td ts s' -> tshape (x s) = tshape (x s')) ->
  In d (p_ranks Py) ->
  exists t, sum_reduce_layer Px Py same ts td pb dt rg x d = Ok t /\
    (forall s, In s (p_ranks Px) -> csrc Py Px td ts s = d -> tshape t = tshape (x s)) /\
    forall i, tat t i = leaf_sum (p_ranks Px) (csrc Py Px td ts) x d i.
Proof.
  intros (H1 & H2 & HR & HC & HS) HX Heq Hd. unfold sum_reduce_layer, layer_forward.
  destruct (is_identity same Px ts td d) eqn:I.
  { pose proof (identity_same _ _ _ _ _ I) as E. specialize (HS E). subst Py.
    rewrite identity_flags in I.
    destruct (identity_csrc same Px td ts d H1 I HC) as (Hid & _).
    exists (x d). split; auto. split.
    - intros s Hs <-. now rewrite Hid.
    - intros i. apply identity_sum_self; auto. apply H1. }
  rewrite active_or by auto.
  pose proof (reduction_cross_wf Py Px td ts H2 H1 (eq_sym HR) HC) as W.
  destruct (runs_ok_rd Py Px td ts H2 H1 (eq_sym HR) HC d) as [c ->]. cbn [rbind].
  destruct (csrc_surj Py Px td ts H2 H1 HC d Hd) as (s0 & Hs0 & E0).
  assert (Hsh : forall s, In s (p_ranks Px) -> csrc Py Px td ts s = d -> tshape (x s) = tshape (x s0))
    by (intros s Hs Es; apply Heq; congruence).
  destruct (rd_shape _ _ _ _ _ W (structs_of dt rg x) d (tshape (x s0)) Hd) as (o & Ho & So).
  { exists s0. auto. }
  { intros s Hs Es. now apply Hsh. }
  { apply HX. auto. }
  rewrite Ho. cbn [rbind].
  destruct (sum_reduce_forward_root _ _ _ _ _ W pb (fun u => tshape (x u))
      (out_structs (create_reduction_partition_to Px Py ts td) (structs_of dt rg x)) x d (tshape (x s0)))
      as (t & Et & T1 & T2); auto.
  - intros E. apply HX; auto.
  - unfold out_structs. rewrite Ho. exact So.
  - exists t. split; auto. split; auto. intros s Hs Es. rewrite T1. symmetry. auto.
Qed.

Lemma sum_reduce_layer_other R Px Py same ts td pb dt rg (x : Z -> tensor R) v :
  rd_accepted Px Py ts td same -> shapes_ok Px Py pb x ->
  In v (p_ranks Px) -> ~ In v (p_ranks Py) ->
  zero_vol pb (batch_of (x v)) (sum_reduce_layer Px Py same ts td pb dt rg x v).
Proof.
  intros (H1 & H2 & HR & HC & HS) HX Hv Hn. unfold sum_reduce_layer, layer_forward.
  destruct (is_identity same Px ts td v) eqn:I.
  { pose proof (identity_same _ _ _ _ _ I) as E. specialize (HS E). subst Py. contradiction. }
  rewrite active_or by auto.
  pose proof (reduction_cross_wf Py Px td ts H2 H1 (eq_sym HR) HC) as W.
  destruct (runs_ok_rd Py Px td ts H2 H1 (eq_sym HR) HC v) as [c ->]. cbn [rbind].
  rewrite structure_not_receiving by now apply (cw_root_none _ _ _ _ _ W). cbn [rbind].
  rewrite (sum_reduce_forward_none _ _ _ _ _ W) by auto.
  apply zero_volume_ok. now apply HX; auto.
Qed.

Lemma amo_either (P : part) a b : bc_flags P a b -> b = a \/ at_most_one_nontrivial (p_shape P).
Proof. intros [->|H]; auto. Qed.

Lemma C16_proof : C16_statement.
Proof.
  intros Px Py same ts td pb dt rg HA. exists (csrc Py Px td ts).
  destruct HA as (H1 & H2 & HR & HC & HS).
  assert (HA : rd_accepted Px Py ts td same) by (unfold rd_accepted; auto).
  assert (Hdst : forall s, In s (p_ranks Px) -> In (csrc Py Px td ts s) (p_ranks Py))
    by (intros; now apply csrc_spec).
  split; auto. split.
  { intros HF s d Hs. apply csrc_paired; auto using amo_either. }
  intros R x y HX Heq.
  pose proof (reduction_cross_wf Py Px td ts H2 H1 (eq_sym HR) HC) as W.
  assert (Hy : forall d, In d (p_ranks Py) -> exists t, y d = Ok t /\
     (forall s, In s (p_ranks Px) -> csrc Py Px td ts s = d -> tshape t = tshape (x s)) /\
     forall i, tat t i = leaf_sum (p_ranks Px) (csrc Py Px td ts) x d i)
    by (intros; now apply sum_reduce_layer_dest).
  split; [|split; [|split]].
  - intros d Hd. destruct (Hy d Hd) as (t & T1 & T2 & T3). exists t. split; auto. split; auto.
    intros i _. exact (T3 i).
  - intros v Hv Hn. now apply sum_reduce_layer_other.
  - intros v Hx Hn. now apply layer_forward_outside.
  - intros dy dx HDY Hdy.
    assert (Hdy' : forall s, In s (p_ranks Px) -> tshape (dy (csrc Py Px td ts s)) = tshape (x s)).
    { intros s Hs. rewrite Hdy by auto. destruct (Hy _ (Hdst s Hs)) as (t & -> & T2 & _). auto. }
    assert (Hdx : forall s, In s (p_ranks Px) -> dx s = Ok (dy (csrc Py Px td ts s))).
    { intros s Hs. unfold dx, sum_reduce_layer_backward, layer_backward.
      destruct (is_identity same Px ts td s) eqn:I.
      { pose proof (identity_same _ _ _ _ _ I) as E. pose proof (HS E). subst Py.
        rewrite identity_flags in I.
        destruct (identity_csrc same Px td ts s H1 I HC) as (Hid & _). now rewrite Hid. }
      rewrite active_or by auto. destruct (runs_ok_rd Py Px td ts H2 H1 (eq_sym HR) HC s) as [c ->].
      cbn [rbind]. apply (sum_reduce_backward_leaf _ _ _ _ _ W); auto.
      - intros E. now apply HDY; auto.
      - now rewrite Hdy'. }
    split; [|split].
    + intros s Hs. rewrite Hdx by auto. eexists. split; [reflexivity|apply teq_refl].
    + intros v Hx Hv. unfold dx, sum_reduce_layer_backward, layer_backward.
      destruct (is_identity same Px ts td v) eqn:I; [now apply identity_active in I|].
      rewrite active_or by auto. destruct (runs_ok_rd Py Px td ts H2 H1 (eq_sym HR) HC v) as [c ->].
      cbn [rbind]. rewrite (sum_reduce_backward_none _ _ _ _ _ W) by auto.
      apply zero_volume_ok. now apply HDY; auto.
    + transitivity (sumf (p_ranks Py) (fun d => inner (dy d) (val (y d)))).
      { apply sumf_ext. intros d Hd. apply inner_comm. now rewrite Hdy. }
      transitivity (sumf (p_ranks Px) (fun s => inner (val (dx s)) (x s))).
      2:{ apply sumf_ext. intros s Hs. apply inner_comm. rewrite Hdx by auto. cbn [val]. auto. }
      symmetry.
      apply (cross_adjoint _ _ _ _ _ W dy x (fun s => val (dx s)) (fun d => val (y d))).
      * intros s Hs. rewrite Hdx by auto. apply teq_refl.
      * intros s Hs. now rewrite Hdy'.
      * intros d Hd. split; [now rewrite Hdy|]. intros i _.
        destruct (Hy d Hd) as (t & -> & _ & T3). apply T3.
Qed.

Theorem C16_sum_reduce : C16_statement.
Proof. exact C16_proof. Qed.

(** Reducing the 2x3x1 grid of workers 2..7 to workers 0,1,2: worker 2 is a
    source of worker 0 and the destination of workers 4 and 7. *)
Definition ex16_x (v : Z) : tensor Zring := @mkt Zring [2] (fun i => 10 * v + row_major [2] i).

Example C16_example :
  rd_accepted ex_dst ex_src false false false /\ bc_flags ex_src false false /\
  shapes_ok ex_dst ex_src false ex16_x /\
  let y := sum_reduce_layer ex_dst ex_src false false false false (fun _ => 0) (fun _ => true) ex16_x in
  tat (val (y 2)) [1] = 41 + 71 /\ tat (val (y 0)) [1] = 21 + 51 /\ tshape (val (y 3)) = [0].
Proof.
  split; [|split; [|split]].
  - split; [|split; [|split; [|split]]]; auto.
    + repeat split; try discriminate; repeat constructor; simpl; lia.
    + repeat split; try discriminate; repeat constructor; simpl; lia.
    + split; [simpl; lia|]. repeat constructor; auto.
    + discriminate.
  - now left.
  - intros v _. split; [|discriminate]. repeat constructor. lia.
  - vm_compute. auto.
Qed.

Print Assumptions C16_sum_reduce.

(** ** C17 *)

(** Exactly one of the two arguments names the axes. *)
Definition is_kept (axes_reduce axes_keep : option (list Z)) (k : nat) : bool :=
  match axes_reduce, axes_keep with
  | Some a, _ => if in_dec Z.eq_dec (Z.of_nat k) a then false else true
  | None, Some a => if in_dec Z.eq_dec (Z.of_nat k) a then true else false
  | None, None => true
  end.

Definition axes_given (n : nat) (axes_reduce axes_keep : option (list Z)) : Prop :=
  match axes_reduce, axes_keep with
  | Some a, None | None, Some a => Forall (fun d => 0 <= d < Z.of_nat n) a
  | _, _ => False
  end.

(** Two indices agree on the kept axes. *)
Definition same_kept ar ak (i j : list Z) : Prop :=
  forall k, (k < length i)%nat -> is_kept ar ak k = true -> nth k i 0 = nth k j 0.

(** The shape of the partition that remains after reduction. *)
Definition kept_shape ar ak (s : list Z) : list Z :=
  map (fun k => if is_kept ar ak k then nth k s 0 else 1) (seq 0 (length s)).

(** The workers that [v] is reduced with. *)
Definition reduced_with (P : part) ar ak (v u : Z) : Prop :=
  exists i j, worker_at P i v /\ worker_at P j u /\ same_kept ar ak i j.

Definition C17_statement : Prop :=
  forall (R : CRing) P ar ak (x : Z -> tensor R),
  part_ok P -> axes_given (length (p_shape P)) ar ak ->
  (forall u v, reduced_with P ar ak u v -> tshape (x u) = tshape (x v)) ->
  let y := all_sum_reduce_layer P ar ak x in
  (* the sum over the workers agreeing on the kept axes *)
  (forall v, In v (p_ranks P) -> exists t, y v = Ok t /\ tshape t = tshape (x v) /\
     forall g i, NoDup g -> (forall u, In u g <-> reduced_with P ar ak v u) ->
     valid_index (tshape t) i -> tat t i = sumf g (fun u => tat (x u) i)) /\
  (forall v, ~ In v (p_ranks P) -> y v = Ok (x v)) /\
  (* the same as reducing to a partition Q without the reduced axes and
     broadcasting back *)
  (forall Q same pb dt rg dt' rg', part_ok Q -> p_root Q = p_root P ->
     p_shape Q = kept_shape ar ak (p_shape P) -> (same = true -> Q = P) ->
     shapes_ok P Q pb x ->
     forall v, In v (p_ranks P) -> exists t t', y v = Ok t /\
       broadcast_layer Q P same false false pb dt' rg'
         (fun u => val (sum_reduce_layer P Q same false false pb dt rg x u)) v = Ok t' /\
       teq t t') /\
  (* self-adjoint *)
  (forall z : Z -> tensor R, (forall v, In v (p_ranks P) -> tshape (z v) = tshape (x v)) ->
     let y' := all_sum_reduce_layer_backward P ar ak x z in
     (forall v, In v (p_ranks P) -> exists t t', y' v = Ok t /\
        all_sum_reduce_layer P ar ak z v = Ok t' /\ teq t t') /\
     sumf (p_ranks P) (fun v => inner (val (y v)) (z v)) =
     sumf (p_ranks P) (fun v => inner (x v) (val (y' v)))).

Lemma axes_resolved n ar ak : axes_given n ar ak ->
  exists axes, all_sum_reduce_axes (Z.of_nat n) ar ak = Ok axes /\
    Forall (fun a => a < Z.of_nat n) axes /\
    forall k, (k < n)%nat -> (In (Z.of_nat k) axes <-> is_kept ar ak k = false).
Proof.
  intros H. destruct ar as [a|], ak as [b|]; simpl in *; try contradiction.
  - exists a. split; auto. split.
    + eapply Forall_impl; [|exact H]. simpl; intros; lia.
    + intros k _. unfold is_kept. destruct (in_dec Z.eq_dec (Z.of_nat k) a); split; auto; congruence.
  - eexists. split; [reflexivity|]. split.
    + apply Forall_forall. intros d Hd. apply filter_In in Hd as [Hd _]. apply in_zrange in Hd. lia.
    + intros k Hk. rewrite filter_In, in_zrange, negb_true_iff. unfold is_kept.
      destruct (in_dec Z.eq_dec (Z.of_nat k) b) as [I|I].
      * split; [|congruence]. intros [_ C]. exfalso.
        assert (existsb (Z.eqb (Z.of_nat k)) b = true); [|congruence].
        apply existsb_exists. exists (Z.of_nat k). split; auto. apply Z.eqb_refl.
      * split; auto. intros _. split; [lia|]. destruct (existsb (Z.eqb (Z.of_nat k)) b) eqn:E; auto.
        apply existsb_exists in E as (c & Hc & Ec). apply Z.eqb_eq in Ec. subst. contradiction.
Qed.

Lemma agree_same_kept axes n ar ak i j : length i = n ->
  (forall k, (k < n)%nat -> (In (Z.of_nat k) axes <-> is_kept ar ak k = false)) ->
  (agree_off axes i j <-> same_kept ar ak i j).
Proof.
  intros HL H. unfold agree_off, same_kept. split; intros HA k Hk HN; apply HA; auto.
  - intros C. apply H in C; [congruence|lia].
  - destruct (is_kept ar ak k) eqn:E; auto. exfalso. apply HN, H; auto. lia.
Qed.

Section AllReduce.
  Variables (P : part) (ar ak : option (list Z)).
  Hypothesis HP : part_ok P.
  Hypothesis Hax : axes_given (length (p_shape P)) ar ak.

  Lemma reduced_with_sym u v : reduced_with P ar ak u v -> reduced_with P ar ak v u.
  Proof.
    intros (i & j & Hi & Hj & H). exists j, i. split; auto. split; auto.
    intros k Hk Hkk. symmetry. apply H; auto.
    rewrite (valid_index_length _ _ (proj1 Hi)), <- (valid_index_length _ _ (proj1 Hj)). auto.
  Qed.

  Lemma reduced_with_refl v : In v (p_ranks P) -> reduced_with P ar ak v v.
  Proof. intros Hv. destruct (worker_at_exists P v HP Hv) as [i Hi]. exists i, i. repeat split; auto; apply Hi. Qed.

  (** The list of workers, as the code computes it. *)
  Definition ar_list (v : Z) : list Z :=
    match allreduce_groups P (match all_sum_reduce_axes (Z.of_nat (length (p_shape P))) ar ak with
                              | Ok a => a | Raise _ => [] end) v with
    | Some g => g | None => [] end.

  Lemma ar_list_spec v : In v (p_ranks P) ->
    NoDup (ar_list v) /\ (forall u, In u (ar_list v) <-> reduced_with P ar ak v u) /\
    forall u, In u (ar_list v) -> ar_list u = ar_list v.
  Proof.
    intros Hv. destruct (axes_resolved _ _ _ Hax) as (axes & EA & HF & HK).
    unfold ar_list. rewrite EA.
    assert (HG : forall w iw, worker_at P iw w -> allreduce_groups P axes w = Some (ar_members P axes iw)).
    { intros w iw Hw. unfold allreduce_groups. now rewrite (allreduction_run P axes iw w). }
    destruct (worker_at_exists P v HP Hv) as [i Hi]. rewrite (HG v i Hi).
    assert (HM : forall u, In u (ar_members P axes i) <-> reduced_with P ar ak v u).
    { intros u. rewrite (ar_members_in P axes i v u HP Hi). split.
      - intros (j & Hj & A). exists i, j. split; auto. split; auto.
        apply (agree_same_kept axes (length (p_shape P))); auto.
        now apply valid_index_length, (proj1 Hi).
      - intros (i' & j & Hi' & Hj & A). exists j. split; auto.
        assert (i' = i) as -> by (eapply worker_at_fun; eauto).
        apply (agree_same_kept axes (length (p_shape P)) ar ak); auto.
        now apply valid_index_length, (proj1 Hi). }
    split; [now apply ar_members_nodup|]. split; auto.
    intros u Hu. apply (ar_members_in P axes i v u HP Hi) in Hu as (j & Hj & A).
    rewrite (HG u j Hj). unfold ar_members. rewrite (assemble_filter_agree axes i j); auto.
    rewrite (valid_index_length _ _ (proj1 Hi)), (valid_index_length _ _ (proj1 Hj)). reflexivity.
  Qed.

  Lemma all_sum_reduce_value R (x z : Z -> tensor R) v :
    (forall u w, reduced_with P ar ak u w -> tshape (x u) = tshape (x w)) ->
    (forall w, In w (p_ranks P) -> tshape (z w) = tshape (x w)) ->
    In v (p_ranks P) ->
    exists t, all_sum_reduce_layer_backward P ar ak x z v = Ok t /\ tshape t = tshape (x v) /\
      forall i, tat t i = sumf (ar_list v) (fun u => tat (z u) i).
  Proof.
    intros Hx Hz Hv. destruct (axes_resolved _ _ _ Hax) as (axes & EA & HF & HK).
    destruct (ar_list_spec v Hv) as (HN & HM & HE).
    unfold all_sum_reduce_layer_backward. rewrite EA. cbn [rbind].
    pose proof Hv as Ha. apply is_active_spec in Ha. rewrite Ha. cbn [negb].
    destruct (Z.eqb_spec (Z.of_nat (length (p_ranks P))) 1) as [E1|E1].
    { exists (z v). split; auto. split; auto. intros i. symmetry.
      apply (sumf_single (ar_list v) (fun u => tat (z u) i)); auto.
      - now apply HM, reduced_with_refl.
      - intros j Hj Nj. exfalso. apply HM in Hj as (a & b & _ & Hb & _). apply worker_at_In in Hb.
        destruct (p_ranks P) as [|w [|w' l]]; simpl in E1; try lia.
        destruct Hb as [Hb|[]], Hv as [Hv|[]]. congruence. }
    destruct (worker_at_exists P v HP Hv) as [i Hi].
    rewrite (allreduction_run P axes i v) by auto. cbn [rbind].
    unfold all_sum_reduce_backward, all_sum_reduce_forward.
    assert (HG : forall u, In u (p_ranks P) -> allreduce_groups P axes u = Some (ar_list u)).
    { intros u Hu. unfold ar_list. rewrite EA. unfold allreduce_groups.
      destruct (worker_at_exists P u HP Hu) as [j Hj].
      now rewrite (allreduction_run P axes j u) by auto. }
    rewrite HG by auto. unfold ireduce.
    rewrite (contributions_ok (ar_list v) _ z).
    2:{ intros m Hm. assert (Hmv := Hm). apply HM in Hm as (a & b & _ & Hb & _).
        apply worker_at_In in Hb. rewrite HG by auto. rewrite HE by auto.
        now rewrite (proj2 (on_comm_spec _ _) eq_refl). }
    cbn [rbind]. replace (forallb _ (map z (ar_list v))) with true.
    2:{ symmetry. apply forallb_forall. intros t Ht. apply in_map_iff in Ht as (m & <- & Hm).
        apply zlist_eqb_eq. apply HM in Hm. rewrite Hz.
        - symmetry. now apply Hx.
        - destruct Hm as (a & b & _ & Hb & _). now apply worker_at_In in Hb. }
    eexists. split; [reflexivity|]. split; auto. intros k. cbn [tat]. now rewrite sumf_map.
  Qed.

  Lemma all_sum_reduce_self R (x : Z -> tensor R) v :
    all_sum_reduce_layer P ar ak x v = all_sum_reduce_layer_backward P ar ak x x v.
  Proof. reflexivity. Qed.

  (** Reducing to the kept shape groups the same workers. *)
  Lemma kept_pairing Q : part_ok Q -> p_shape Q = kept_shape ar ak (p_shape P) ->
    bc_compatible (p_shape Q) (p_shape P) /\
    forall u v, In u (p_ranks P) -> In v (p_ranks P) ->
      (csrc Q P false false u = csrc Q P false false v <-> reduced_with P ar ak u v).
  Proof.
    intros HQ HS.
    assert (HL : length (p_shape Q) = length (p_shape P))
      by (rewrite HS; unfold kept_shape; now rewrite map_length, seq_length).
    assert (Hnth : forall k, (k < length (p_shape P))%nat ->
       nth k (p_shape Q) 0 = if is_kept ar ak k then nth k (p_shape P) 0 else 1).
    { intros k Hk. rewrite HS. unfold kept_shape.
      now rewrite nth_map_seq. }
    assert (HC : bc_compatible (p_shape Q) (p_shape P)).
    { split; [lia|]. unfold trailing. rewrite HL, Nat.sub_diag. cbn [skipn].
      apply Forall2_nth with (da := 0) (db := 0). split; auto. intros k Hk. rewrite HL in Hk.
      rewrite Hnth by auto. destruct (is_kept ar ak k); auto. }
    split; auto. intros u v Hu Hv.
    destruct (csrc_spec Q P false false HQ HP HC u Hu) as [Iu _].
    destruct (csrc_spec Q P false false HQ HP HC v Hv) as [Iv _].
    assert (Pu : paired Q P false false (csrc Q P false false u) u) by (apply csrc_paired; auto).
    assert (Pv : paired Q P false false (csrc Q P false false v) v) by (apply csrc_paired; auto).
    destruct Pu as (qu & iu & Wqu & Wu & Eu). destruct Pv as (qv & iv & Wqv & Wv & Ev).
    cbn [flip] in Eu, Ev.
    assert (HLu : length iu = length (p_shape P)) by now apply valid_index_length, (proj1 Wu).
    assert (HLv : length iv = length (p_shape P)) by now apply valid_index_length, (proj1 Wv).
    assert (HPr : forall i, length i = length (p_shape P) ->
      length (project (p_shape Q) i) = length (p_shape P) /\
      forall k, (k < length (p_shape P))%nat ->
        nth k (project (p_shape Q) i) 0 = if nth k (p_shape Q) 0 =? 1 then 0 else nth k i 0).
    { intros i Hi. unfold project, trailing. rewrite HL, Hi, Nat.sub_diag. cbn [skipn].
      split; [rewrite map2_length; lia|]. intros k Hk. rewrite (map2_nth _ _ _ k 0 0 0) by lia. reflexivity. }
    destruct (HPr iu HLu) as [Lu Nu]. destruct (HPr iv HLv) as [Lv Nv].
    split.
    - intros E. exists iu, iv. split; auto. split; auto. intros k Hk Hkept.
      assert (qu = qv) as Eq by (rewrite E in Wqu; now apply (worker_at_fun Q qu qv _ HQ Wqu)).
      assert (Hn : nth k (project (p_shape Q) iu) 0 = nth k (project (p_shape Q) iv) 0) by congruence.
      rewrite Nu, Nv in Hn by lia. rewrite Hnth, Hkept in Hn by lia.
      destruct (Z.eqb_spec (nth k (p_shape P) 0) 1) as [E1|]; auto.
      assert (B : forall i, valid_index (p_shape P) i -> nth k i 0 = 0).
      { intros i Hi. apply Forall2_nth with (da := 0) (db := 0) in Hi as [_ Hi].
        specialize (Hi k). rewrite E1 in Hi. lia. }
      rewrite (B iu (proj1 Wu)), (B iv (proj1 Wv)). reflexivity.
    - intros (i & j & Hi & Hj & A).
      assert (i = iu) as -> by now apply (worker_at_fun P i iu u HP).
      assert (j = iv) as -> by now apply (worker_at_fun P j iv v HP).
      assert (qu = qv) as Eq.
      { rewrite Eu, Ev. apply (list_eq_nth _ _ 0); [congruence|]. intros k Hk. rewrite Lu in Hk.
        rewrite Nu, Nv by auto. rewrite Hnth by auto.
        destruct (is_kept ar ak k) eqn:Ek; auto. rewrite (A k); auto. lia. }
      rewrite Eq in Wqu. apply (worker_at_inj Q qv); auto.
  Qed.
End AllReduce.


Lemma leaf_sum_list (R : CRing) D src (x : Z -> tensor R) s i g : NoDup D -> NoDup g ->
  (forall u, In u g <-> In u D /\ src u = s) -> leaf_sum D src x s i = sumf g (fun u => tat (x u) i).
Proof.
  intros HN HG H. unfold leaf_sum. apply sumf_perm, NoDup_Permutation; auto using NoDup_filter.
  intros u. rewrite filter_In, Z.eqb_eq, H. tauto.
Qed.

Lemma C17_proof : C17_statement.
Proof.
  intros R P ar ak x HP Hax Hx y.
  assert (Hy : forall v, In v (p_ranks P) -> exists t, y v = Ok t /\ tshape t = tshape (x v) /\
     forall i, tat t i = sumf (ar_list P ar ak v) (fun u => tat (x u) i)).
  { intros v Hv. unfold y. rewrite all_sum_reduce_self. apply all_sum_reduce_value; auto. }
  split; [|split; [|split]].
  - intros v Hv. destruct (Hy v Hv) as (t & T1 & T2 & T3). exists t. split; auto. split; auto.
    intros g i HN Hg _. rewrite T3. destruct (ar_list_spec P ar ak HP Hax v Hv) as (HN' & HM & _).
    apply sumf_perm, NoDup_Permutation; auto. intros u. now rewrite HM, Hg.
  - intros v Hv. unfold y, all_sum_reduce_layer.
    destruct (axes_resolved _ _ _ Hax) as (axes & -> & _). cbn [rbind].
    apply is_active_false in Hv. now rewrite Hv.
  - intros Q same pb dt rg dt' rg' HQ HR HS Hsame HX v Hv.
    destruct (Hy v Hv) as (t & T1 & T2 & T3). exists t.
    destruct (kept_pairing P ar ak HP Q HQ HS) as [HC Hpair].
    assert (HA1 : rd_accepted P Q false false same).
    { split; auto. split; auto. split; auto. split; auto. intros E. symmetry. auto. }
    assert (HA2 : bc_accepted Q P false false same).
    { unfold bc_accepted; auto. }
    assert (Heq : forall s s', In s (p_ranks P) -> In s' (p_ranks P) ->
       csrc Q P false false s = csrc Q P false false s' -> tshape (x s) = tshape (x s')).
    { intros s s' I1 I2 E. apply Hx. now apply Hpair. }
    set (z := fun u => val (sum_reduce_layer P Q same false false pb dt rg x u)).
    assert (HZ : forall q, In q (p_ranks Q) -> exists t',
       sum_reduce_layer P Q same false false pb dt rg x q = Ok t' /\
       (forall s, In s (p_ranks P) -> csrc Q P false false s = q -> tshape t' = tshape (x s)) /\
       forall i, tat t' i = leaf_sum (p_ranks P) (csrc Q P false false) x q i)
      by (intros; now apply sum_reduce_layer_dest).
    assert (HXZ : shapes_ok Q P pb z).
    { intros u Hu. unfold z. destruct (in_dec Z.eq_dec u (p_ranks Q)) as [I|I].
      - destruct (HZ u I) as (t' & -> & T' & _). cbn [val].
        destruct (csrc_surj Q P false false HQ HP HC u I) as (s & Hs & Es).
        rewrite (T' s Hs Es). apply HX. auto.
      - assert (J : In u (p_ranks P)) by tauto.
        destruct (sum_reduce_layer_other R P Q same false false pb dt rg x u HA1 HX J I) as (t' & -> & T').
        cbn [val]. rewrite T'. destruct (HX u (or_introl J)) as [N1 N2]. unfold batch_of. destruct pb.
        + split; [|discriminate]. destruct (tshape (x u)); repeat constructor; simpl; try lia. now inv N1.
        + split; [|discriminate]. repeat constructor. lia. }
    exists (z (csrc Q P false false v)). split; auto. split.
    { now apply broadcast_layer_dest. }
    destruct (csrc_spec Q P false false HQ HP HC v Hv) as [Iq _].
    destruct (HZ _ Iq) as (t' & E' & T1' & T2'). unfold z. rewrite E'. cbn [val].
    split; [rewrite T2; symmetry; now apply T1'|].
    intros i _. rewrite T3, T2'. symmetry.
    destruct (ar_list_spec P ar ak HP Hax v Hv) as (HN' & HM & _).
    apply leaf_sum_list; auto; [apply HP|].
    intros u. rewrite HM. split.
    + intros Hr. assert (Iu : In u (p_ranks P)) by (destruct Hr as (a & b & _ & Hb & _); now apply worker_at_In in Hb).
      split; auto. symmetry. now apply Hpair.
    + intros [Iu E]. apply Hpair; auto.
  - intros z Hz y'.
    assert (Hy' : forall v, In v (p_ranks P) -> exists t, y' v = Ok t /\ tshape t = tshape (x v) /\
       forall i, tat t i = sumf (ar_list P ar ak v) (fun u => tat (z u) i))
      by (intros v Hv; now apply all_sum_reduce_value).
    assert (Hzz : forall u w, reduced_with P ar ak u w -> tshape (z u) = tshape (z w)).
    { intros u w H. rewrite (Hz u), (Hz w); auto; destruct H as (a & b & Ha & Hb & _);
        eapply worker_at_In; eauto. }
    split.
    + intros v Hv. destruct (Hy' v Hv) as (t & T1 & T2 & T3).
      destruct (all_sum_reduce_value P ar ak HP Hax R z z v Hzz (fun _ _ => eq_refl) Hv) as (t' & T1' & T2' & T3').
      exists t, t'. split; auto. split; auto. split; [rewrite T2, T2', Hz; auto|].
      intros i _. now rewrite T3, T3'.
    + set (rel := fun v u => existsb (Z.eqb u) (ar_list P ar ak v)).
      assert (Hrel : forall v u, In v (p_ranks P) -> (rel v u = true <-> reduced_with P ar ak v u)).
      { intros v u Hv. destruct (ar_list_spec P ar ak HP Hax v Hv) as (_ & HM & _).
        rewrite <- HM. unfold rel. rewrite existsb_exists. split.
        - intros (w & Hw & E). apply Z.eqb_eq in E. now subst.
        - intros H. exists u. split; auto. apply Z.eqb_refl. }
      assert (Hsum : forall (f : Z -> R) v, In v (p_ranks P) ->
        sumf (ar_list P ar ak v) f = sumf (p_ranks P) (fun u => if rel v u then f u else rzero)).
      { intros f v Hv. rewrite <- sumf_filter. destruct (ar_list_spec P ar ak HP Hax v Hv) as (HN' & HM & _).
        apply sumf_perm, NoDup_Permutation; auto.
        - apply NoDup_filter, HP.
        - intros u. rewrite filter_In, Hrel, HM by auto. split; [|tauto]. intros H. split; auto.
          destruct H as (a & b & _ & Hb & _). now apply worker_at_In in Hb. }
      transitivity (sumf (p_ranks P) (fun v => sumf (p_ranks P) (fun u =>
          if rel v u then sumf (indices (tshape (x v))) (fun i => (tat (x u) i * tat (z v) i)%R) else rzero))).
      { apply sumf_ext. intros v Hv. destruct (Hy v Hv) as (t & E & T2 & T3). rewrite E. cbn [val].
        unfold inner. rewrite T2.
        transitivity (sumf (indices (tshape (x v))) (fun i => sumf (p_ranks P)
           (fun u => if rel v u then (tat (x u) i * tat (z v) i)%R else rzero))).
        - apply sumf_ext. intros i _. rewrite T3, Hsum, <- sumf_mul_r by auto. apply sumf_ext.
          intros u _. destruct (rel v u); auto. apply (mul_zero_l R).
        - rewrite sumf_exchange. apply sumf_ext. intros u _. destruct (rel v u); auto.
          now apply sumf_zero. }
      rewrite sumf_exchange. apply sumf_ext. intros u Hu. destruct (Hy' u Hu) as (t & E & T2 & T3).
      rewrite E. cbn [val]. unfold inner.
      transitivity (sumf (indices (tshape (x u))) (fun i => sumf (p_ranks P)
         (fun v => if rel u v then (tat (x u) i * tat (z v) i)%R else rzero))).
      * rewrite sumf_exchange. apply sumf_ext. intros v Hv.
        destruct (rel v u) eqn:E1.
        -- apply Hrel in E1; auto. assert (E2 : rel u v = true) by (apply Hrel; auto; now apply reduced_with_sym).
           rewrite E2, (Hx v u E1). reflexivity.
        -- destruct (rel u v) eqn:E2.
           ++ apply Hrel in E2; auto. apply reduced_with_sym in E2; auto. apply Hrel in E2; auto. congruence.
           ++ symmetry. now apply sumf_zero.
      * apply sumf_ext. intros i _. rewrite T3, Hsum, <- sumf_mul_l by auto. apply sumf_ext.
        intros v _. destruct (rel u v); auto. symmetry. apply (mul_zero_r R).
Qed.

Theorem C17_all_sum_reduce : C17_statement.
Proof. exact C17_proof. Qed.

(** Reducing a 2x3 grid over its rows: worker 14 at (1,1) holds the sum with
    worker 11 at (0,1). *)
Definition ex17_P : part := mkpart 0 [10; 11; 12; 13; 14; 15] [2; 3].

Example C17_example :
  part_ok ex17_P /\ axes_given 2 (Some [0]) None /\ axes_given 2 None (Some [1]) /\
  reduced_with ex17_P (Some [0]) None 14 11 /\
  kept_shape (Some [0]) None [2; 3] = [1; 3] /\
  tat (val (all_sum_reduce_layer ex17_P (Some [0]) None ex16_x 14)) [1] = 141 + 111 /\
  tat (val (all_sum_reduce_layer ex17_P None (Some [1]) ex16_x 11)) [1] = 141 + 111.
Proof.
  split; [repeat split; try discriminate; repeat constructor; simpl; lia|].
  split; [repeat constructor; lia|]. split; [repeat constructor; lia|].
  split.
  - exists [1; 1], [0; 1]. split; [repeat split; repeat constructor; lia|].
    split; [repeat split; repeat constructor; lia|].
    intros k Hk Hkept. destruct k as [|[|k]]; simpl in *; try lia; discriminate.
  - vm_compute. auto.
Qed.

Print Assumptions C17_all_sum_reduce.
