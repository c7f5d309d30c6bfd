(** Repartition: which inputs are refused, and where (C21). *)

From Verif Require Import Prelude ModelSlicing ModelDecomposition ModelPartition
  SpecIndex SpecLayout SpecPartition ProofSlicing ProofDecomposition ProofPartition
  Ring Tensor ModelCollectives PropExchange ModelBuffer P2P Rounds ModelRepartition ProofRepartition PropRepartition.

(** The layer is constructed and set up for the inputs. *)
Definition accepted {A} (r : result (option A)) : Prop := exists d, r = Ok (Some d).
Definition refused {A} (e : error) (r : result A) : Prop := r = Raise e.

(** The whole claim.  The local inputs on P_x are the blocks of a global tensor
    whose rank may differ from the dimension of P_x: they are blocks in the
    dimensions of P_x and have [extra] further ones. *)
Definition C21_statement : Prop :=
  forall (Px Py : part) (Lx : layout) (extra : list Z) (shape : Z -> list Z),
    part_ok Px -> part_ok Py -> p_root Px = p_root Py ->
    layout_ok Lx -> layout_workers Lx = p_shape Px -> nonneg_shape extra ->
    (forall idx v, worker_at Px idx v -> shape v = block_shape Lx idx ++ extra) ->
    (* refused *)
    ((length (p_shape Px) <> length (p_shape Py) \/
      length (p_shape Px) <> length (layout_shape Lx ++ extra) \/
      length (p_shape Py) <> length (layout_shape Lx ++ extra) \/
      (exists k, nth k (layout_shape Lx ++ extra) 0 = 1 /\ nth k (p_shape Py) 1 <> 1)) ->
     forall v, member Px Py v -> exists e, refused e (repartition_prepare Px Py shape v)) /\
    (* agreement *)
    ((forall v, member Px Py v -> accepted (repartition_prepare Px Py shape v)) \/
     exists e, forall v, member Px Py v -> refused e (repartition_prepare Px Py shape v)).

(** A tensor of rank 3 on partitions of dimension 2.  The rank check passes on
    every worker, since the shape it looks at has as many entries as P_x has
    dimensions.  Worker 0 then fails to store its shape (an error of numpy), and
    worker 1, which is not in P_x, waits for it for ever. *)
Theorem C21_repartition_refusals_refuted : ~ C21_statement.
Proof.
  intros H.
  set (Px := mkpart 0 [0] [1; 1]). set (Py := mkpart 0 [0; 1] [1; 2]).
  specialize (H Px Py [[4]; [6]] [5] (fun v => if v =? 0 then [4; 6; 5] else [0])).
  destruct H as [_ H].
  - repeat split; try discriminate; repeat constructor; simpl; lia.
  - repeat split; try discriminate; repeat constructor; simpl; lia.
  - reflexivity.
  - repeat constructor; lia.
  - reflexivity.
  - repeat constructor; lia.
  - intros idx v [Hi Hv]. inversion Hi as [|? a ? t Ha Ht]; subst.
    inversion Ht as [|? b ? t' Hb Ht']; subst. inversion Ht'; subst.
    assert (a = 0) by lia. assert (b = 0) by lia. subst. simpl in Hv. inv Hv. reflexivity.
  - destruct H as [H|[e H]].
    + destruct (H 0) as [d Hd]; [left; now left|]. vm_compute in Hd. discriminate.
    + pose proof (H 0 (or_introl (or_introl eq_refl))) as H0.
      pose proof (H 1 (or_intror (or_intror (or_introl eq_refl)))) as H1.
      vm_compute in H0, H1. congruence.
Qed.

(** What holds: for tensors whose rank is the dimension of P_x, of arbitrary and
    even inconsistent extents.  Missing from the whole claim: tensors of another
    rank. *)
Definition C21_partial_statement : Prop :=
  forall (Px Py : part) (shape : Z -> list Z),
    part_ok Px -> part_ok Py -> p_root Px = p_root Py ->
    (length (p_shape Px) <> length (p_shape Py) ->
       forall v, member Px Py v -> refused ErrDim (repartition_prepare Px Py shape v)) /\
    (length (p_shape Px) = length (p_shape Py) ->
     (forall v, In v (p_ranks Px) -> length (shape v) = length (p_shape Px)) ->
     exists global,
       length global = length (p_shape Px) /\
       (forall Lx, layout_ok Lx -> layout_workers Lx = p_shape Px ->
          (forall idx v, worker_at Px idx v -> shape v = block_shape Lx idx) -> global = layout_shape Lx) /\
       ((exists k, nth k global 0 = 1 /\ nth k (p_shape Py) 1 <> 1) ->
          forall v, member Px Py v -> refused ErrValue (repartition_prepare Px Py shape v)) /\
       ((forall k, nth k global 0 = 1 -> nth k (p_shape Py) 1 = 1) ->
          forall v, member Px Py v -> accepted (repartition_prepare Px Py shape v))) /\
    (forall v, ~ member Px Py v -> repartition_prepare Px Py shape v = Ok None).

Lemma split_check n p : length n = length p ->
  existsb (fun q => negb (fst q =? snd q) && (fst q =? 1)) (combine n p) = true <->
  exists k, nth k n 0 = 1 /\ nth k p 1 <> 1.
Proof.
  intros HL. rewrite existsb_exists. split.
  - intros ([a b] & Hin & H). cbn [fst snd] in H. breflect. subst a.
    apply In_nth_error in Hin as (k & Hk). exists k.
    assert (Hn : nth_error n k = Some 1 /\ nth_error p k = Some b).
    { revert p HL k Hk. induction n as [|x n IH]; intros [|y p] HL k Hk; try discriminate.
      - destruct k; discriminate.
      - destruct k; simpl in *; [inv Hk; auto|]. apply IH; auto. }
    destruct Hn as [Hn Hp]. rewrite (nth_error_nth _ _ 0 Hn), (nth_error_nth _ _ 1 Hp).
    split; [reflexivity|]. lia.
  - intros (k & H1 & H2). exists (nth k n 0, nth k p 1).
    assert (Hk : (k < length n)%nat).
    { destruct (Nat.lt_ge_cases k (length n)); auto. rewrite nth_overflow in H1 by lia. discriminate. }
    split.
    + rewrite <- (combine_nth n p k 0 1) by auto. apply nth_In. rewrite combine_length. lia.
    + cbn [fst snd]. rewrite H1. apply andb_true_iff. split; auto.
      destruct (Z.eqb_spec 1 (nth k p 1)); auto.
Qed.

Lemma C21_partial_proof : C21_partial_statement.
Proof.
  intros Px Py shape HPx HPy Hroot.
  set (U := group_union (p_ranks Px) (p_ranks Py)).
  assert (HU : NoDup U) by (destruct HPx as (? & _), HPy as (? & _); now apply group_union_nodup).
  assert (Ux : forall v, In v (p_ranks Px) -> In v U) by (intros; apply group_union_in; auto).
  assert (Uy : forall v, In v (p_ranks Py) -> In v U) by (intros; apply group_union_in; auto).
  assert (Hinit : forall v, member Px Py v -> repartition_init Px Py v =
    if negb (Nat.eqb (length (p_shape Px)) (length (p_shape Py))) then Raise ErrDim
    else Ok (Some (mkrinit U (p_shape Px) (p_shape Py) (gathered_ranks U (p_ranks Px)) (gathered_ranks U (p_ranks Py))))).
  { intros v Hv. unfold repartition_init.
    assert (is_active (p_ranks Px) v || is_active (p_ranks Py) v = true) as ->
      by (apply orb_true_iff; rewrite !is_active_spec; exact Hv).
    cbn [negb]. unfold create_partition_union. rewrite Hroot, Z.eqb_refl. cbn [rbind]. fold U.
    rewrite (broadcast_data_first U Px _ (p_shape Px)); auto. cbn [rbind].
    rewrite (broadcast_data_first U Py _ (p_shape Py)); auto. }
  split; [|split].
  - intros Hd v Hv. unfold refused, repartition_prepare. rewrite Hinit by auto.
    destruct (Nat.eqb_spec (length (p_shape Px)) (length (p_shape Py))); [contradiction|]. reflexivity.
  - intros Hd Hr.
    assert (Has : forall u, In u (p_ranks Px) -> exists n, assembled_shape Px shape u = Ok n /\
      length n = length (p_shape Px) /\
      (forall Lx, layout_ok Lx -> layout_workers Lx = p_shape Px ->
          (forall idx v, worker_at Px idx v -> shape v = block_shape Lx idx) -> n = layout_shape Lx)).
    { intros u Hu. destruct (worker_at_exists Px u HPx Hu) as [idx Hi].
      destruct (at_exists Px idx u HPx Hi) as [at_ Hat]. unfold assembled_shape.
      rewrite Hr, Nat.ltb_irrefl by auto.
      assert (existsb (fun w => (length (shape w) <? length (p_shape Px))%nat) (p_ranks Px) = false) as ->.
      { destruct (existsb _ _) eqn:E; auto. apply existsb_exists in E as (w & Hw & C).
        rewrite Hr, Nat.ltb_irrefl in C by auto. discriminate. }
      eexists. split; [apply (assemble_global_shape_spec Px shape u idx at_); auto|]. split.
      - now rewrite map_length, seq_length.
      - intros Lx HL HW HS.
        pose proof (assemble_layout Px shape Lx u idx HPx HL HW (fun v idx => HS idx v) Hi) as E.
        rewrite (assemble_global_shape_spec Px shape u idx at_) in E by auto. now inv E. }
    pose proof (part_ok_nonempty _ HPx) as HE.
    destruct (p_ranks Px) as [|u0 rest] eqn:Eranks; [congruence|].
    assert (Hu0 : In u0 (p_ranks Px)) by (rewrite Eranks; now left).
    rewrite <- Eranks in *.
    destruct (Has u0 Hu0) as (n & En & Hn & HnL). exists n. split; [exact Hn|]. split; [exact HnL|].
    set (i0 := mkrinit U (p_shape Px) (p_shape Py) (gathered_ranks U (p_ranks Px)) (gathered_ranks U (p_ranks Py))) in *.
    assert (Hset : forall v,
        (existsb (fun q => negb (fst q =? snd q) && (fst q =? 1)) (combine n (p_shape Py)) = true ->
         repartition_setup Px Py shape i0 v = Raise ErrValue) /\
        (existsb (fun q => negb (fst q =? snd q) && (fst q =? 1)) (combine n (p_shape Py)) = false ->
         exists d, repartition_setup Px Py shape i0 v = Ok d)).
    { intros v. unfold repartition_setup.
      assert (Eg : global_shape Px shape i0 v = Ok n).
      { unfold global_shape.
        assert (exists own, (if is_active (p_ranks Px) v then assembled_shape Px shape v else Ok []) = Ok own) as [own ->].
        { destruct (is_active (p_ranks Px) v) eqn:E; eauto. apply is_active_spec in E.
          destruct (Has v E) as (m & -> & _). eauto. }
        cbn [rbind i_union i0].
        rewrite (broadcast_data_spec U (p_ranks Px) (assembled_shape Px shape) 0 u0); auto.
        - now rewrite En.
        - apply HPx.
        - lia.
        - rewrite Eranks. reflexivity. }
      rewrite Eg. cbn [rbind i_xshape i_yshape i_xranks i_yranks i0].
      assert (Nat.eqb (length (p_shape Px)) (length n) = true) as -> by (apply Nat.eqb_eq; auto).
      assert (Nat.eqb (length (p_shape Py)) (length n) = true) as -> by (apply Nat.eqb_eq; congruence).
      cbn [negb]. destruct (existsb _ (combine n (p_shape Py))); [split; [reflexivity|discriminate]|].
      split; [discriminate|]. intros _.
      assert (Gb : forall w, In w (p_ranks Px) -> bad_row Px shape w = false).
      { intros w Hw. unfold bad_row. now rewrite Hr, Nat.eqb_refl. }
      assert (Ex : exists xs, x_shapes Px shape v = Ok xs).
      { unfold x_shapes.
        assert (is_active (p_ranks Px) v && bad_row Px shape v = false) as ->.
        { destruct (is_active (p_ranks Px) v) eqn:E; auto. apply is_active_spec in E. now rewrite Gb. }
        destruct (existsb _ _) eqn:E; eauto. apply existsb_exists in E as (w & Hw & C).
        rewrite Gb in C by auto. discriminate. }
      destruct Ex as [xs ->]. cbn [rbind].
      set (xa := compute_subtensor_start_indices (length (p_shape Px)) xs).
      set (xo := compute_subtensor_stop_indices (length (p_shape Px)) xs).
      set (ya := compute_subtensor_start_indices (length (p_shape Py)) (compute_subtensor_shapes_balanced n (p_shape Py))).
      set (yo := compute_subtensor_stop_indices (length (p_shape Py)) (compute_subtensor_shapes_balanced n (p_shape Py))).
      assert (E1 : exists l, match index_in Px v with
         | Some j => rmap (fun ri => overlap_entry (xa j) (xo j) (ya (snd ri)) (yo (snd ri))
                       (is_self (snd ri) (index_in Py v)) (gathered_ranks U (p_ranks Py)) (fst ri))
                       (enumerate (range_index (p_shape Py)))
         | None => Ok [] end = Ok l).
      { destruct (index_in Px v) as [j|]; eauto. eexists.
        apply (entries_spec U Py v (xa j) (xo j) ya yo ya yo); auto. }
      destruct E1 as [l ->]. cbn [rbind].
      assert (E2 : exists l, match index_in Py v with
         | Some j => rmap (fun ri => overlap_entry (ya j) (yo j) (xa (snd ri)) (xo (snd ri))
                       (is_self (snd ri) (index_in Px v)) (gathered_ranks U (p_ranks Px)) (fst ri))
                       (enumerate (range_index (p_shape Px)))
         | None => Ok [] end = Ok l).
      { destruct (index_in Py v) as [j|]; eauto. eexists.
        apply (entries_spec U Px v (ya j) (yo j) xa xo xa xo); auto. }
      destruct E2 as [l' ->]. cbn [rbind]. eauto. }
    assert (Hl : length n = length (p_shape Py)) by congruence.
    split.
    + intros Hk v Hv. unfold refused, repartition_prepare. rewrite Hinit by auto.
      rewrite Hd, Nat.eqb_refl. cbn [negb rbind].
      destruct (Hset v) as [E _]. rewrite E; [reflexivity|]. now apply split_check.
    + intros Hk v Hv. unfold accepted, repartition_prepare. rewrite Hinit by auto.
      rewrite Hd, Nat.eqb_refl. cbn [negb rbind].
      destruct (Hset v) as [_ E]. destruct E as [d ->]; [|cbn [rbind]; eauto].
      destruct (existsb _ _) eqn:C; auto. apply split_check in C as (k & C1 & C2); auto.
      exfalso. auto.
  - intros v Hv. apply prepare_outside. rewrite group_union_in. exact Hv.
Qed.

Theorem C21_repartition_refusals_partial : C21_partial_statement.
Proof. exact C21_partial_proof. Qed.

(** The partial theorem's three outcomes: a split of an extent-one dimension, an
    accepted layout, and partitions of different dimension. *)
Example C21_example :
  let Px := mkpart 0 [3; 5] [2; 1] in
  let shape := fun v => if (v =? 3) || (v =? 5) then [2; 1] else [0] in
  let split := mkpart 0 [5; 6; 7] [1; 3] in
  let whole := mkpart 0 [5; 6; 7] [3; 1] in
  part_ok Px /\ part_ok split /\ part_ok whole /\
  (forall v, In v [3; 5; 6; 7] -> refused ErrValue (repartition_prepare Px split shape v)) /\
  (forall v, In v [3; 5; 6; 7] -> accepted (repartition_prepare Px whole shape v)) /\
  (forall v, In v [3; 5; 6; 7] -> refused ErrDim (repartition_prepare Px (mkpart 0 [5; 6; 7] [3]) shape v)).
Proof.
  cbv zeta.
  split; [repeat split; try discriminate; repeat constructor; simpl; lia|].
  split; [repeat split; try discriminate; repeat constructor; simpl; lia|].
  split; [repeat split; try discriminate; repeat constructor; simpl; lia|].
  split; [|split]; intros v Hv; simpl in Hv;
    repeat match goal with H : _ \/ _ |- _ => destruct H as [<-|H] | H : False |- _ => destruct H end;
    first [vm_compute; reflexivity | eexists; vm_compute; reflexivity].
Qed.

Print Assumptions C21_repartition_refusals_refuted.
Print Assumptions C21_repartition_refusals_partial.
