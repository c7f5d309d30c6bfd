(** Proofs about Repartition: its setup, and a generic block transfer from one
    partition to another. *)

From Coq Require Import RelationClasses.
From Verif Require Import Prelude ModelSlicing ModelDecomposition ModelPartition
  SpecIndex SpecLayout SpecPartition ProofSlicing ProofDecomposition ProofPartition
  Ring Tensor ModelCollectives ModelBuffer P2P Rounds PropDecomposition PropExchange ModelRepartition.

(** * Workers by index *)

Definition wk (P : part) (j : list Z) : Z := nth (Z.to_nat (row_major (p_shape P) j)) (p_ranks P) 0.

Lemma worker_wk P j v : worker_at P j v -> wk P j = v.
Proof. intros [_ H]. unfold wk. now apply nth_error_nth. Qed.

Lemma wk_worker P j : part_ok P -> valid_index (p_shape P) j -> worker_at P j (wk P j).
Proof.
  intros HP Hj. destruct (worker_exists P j HP Hj) as [v Hv]. now rewrite (worker_wk _ _ _ Hv).
Qed.

Lemma wk_In P j : part_ok P -> valid_index (p_shape P) j -> In (wk P j) (p_ranks P).
Proof. intros HP Hj. eapply worker_at_In. now apply wk_worker. Qed.

Lemma wk_inj P i j : part_ok P -> valid_index (p_shape P) i -> valid_index (p_shape P) j ->
  wk P i = wk P j -> i = j.
Proof.
  intros HP Hi Hj E. apply (worker_at_fun P i j (wk P i) HP); [now apply wk_worker|].
  rewrite E. now apply wk_worker.
Qed.

Lemma index_wk P j : part_ok P -> valid_index (p_shape P) j -> index_in P (wk P j) = Some j.
Proof. intros HP Hj. apply index_in_spec; auto. now apply wk_worker. Qed.

Lemma index_in_valid P v j : part_ok P -> index_in P v = Some j -> valid_index (p_shape P) j /\ wk P j = v.
Proof.
  intros HP H. apply index_in_spec in H; auto. split; [apply H|now apply worker_wk].
Qed.

Lemma ranks_wk P : part_ok P -> p_ranks P = map (wk P) (range_index (p_shape P)).
Proof.
  intros HP. assert (HP' := HP). destruct HP' as (_ & _ & Hp & HL).
  assert (HN : nonneg_shape (p_shape P)) by now apply pos_nonneg.
  pose proof (range_index_length _ HN) as HR.
  apply list_eq_nth with (d := 0).
  - rewrite map_length. lia.
  - intros k Hk.
    destruct (nth_error (range_index (p_shape P)) k) as [j|] eqn:E.
    2:{ apply nth_error_None in E. lia. }
    assert (Hj : valid_index (p_shape P) j) by (apply in_range_index; eapply nth_error_In; eauto).
    symmetry. erewrite nth_error_nth; [|apply map_nth_error; exact E].
    unfold wk. f_equal. pose proof (range_index_nth_row_major _ _ Hj) as E'.
    eapply NoDup_nth_error_inj; [apply range_index_nodup| |]; eauto.
Qed.

(** * The overlaps of two layouts *)

Definition osl (LA : layout) (i : list Z) (LB : layout) (j : list Z) : option (list slice) :=
  compute_subtensor_intersection_slice (block_lo LA i) (block_hi LA i) (block_lo LB j) (block_hi LB j).

Definition urank (U : list Z) (w : Z) : Z := match rank_in U w with Some r => r | None => -1 end.

Definition ent (U : list Z) (o : option (list slice)) (w v : Z) : ov :=
  match o with
  | None => None
  | Some sl => Some (sl, compute_nd_slice_shape sl, if w =? v then PSelf else PRank (urank U w))
  end.

Definition ents (U : list Z) (LA : layout) (A : part) (LB : layout) (B : part) (v : Z) : list ov :=
  match index_in A v with
  | Some i => map (fun j => ent U (osl LA i LB j) (wk B j) v) (range_index (p_shape B))
  | None => []
  end.

Lemma map_snd_combine' {A B} (l1 : list A) (l2 : list B) : length l1 = length l2 ->
  map snd (combine l1 l2) = l2.
Proof.
  revert l2. induction l1 as [|a l1 IH]; intros [|b l2] H; try discriminate; simpl; auto.
  f_equal. apply IH. simpl in H; lia.
Qed.

Lemma rmap_enumerate {A B} (f : Z * A -> result B) (g : A -> B) l :
  (forall k a, nth_error l k = Some a -> f (Z.of_nat k, a) = Ok (g a)) ->
  rmap f (enumerate l) = Ok (map g l).
Proof.
  intros H. unfold enumerate.
  assert (HL : length (zrange (Z.of_nat (length l))) = length l) by (rewrite zrange_length; lia).
  rewrite (rmap_ok f (fun p => g (snd p))).
  - f_equal. rewrite <- (map_map snd g). rewrite map_snd_combine'; auto.
  - intros [k a] Ha. apply In_nth_error in Ha as (m & Hm).
    assert (Hlt : (m < length l)%nat).
    { assert (m < length (combine (zrange (Z.of_nat (length l))) l))%nat
        by (apply nth_error_Some; congruence).
      rewrite combine_length in H0. lia. }
    assert (E : nth_error (combine (zrange (Z.of_nat (length l))) l) m =
      match nth_error (zrange (Z.of_nat (length l))) m, nth_error l m with
      | Some x, Some y => Some (x, y) | _, _ => None end).
    { clear. generalize (zrange (Z.of_nat (length l))) as z. intros z. revert z m.
      induction l as [|a l IH]; intros [|z0 z] [|m]; simpl; auto;
        try (destruct (nth_error z m); auto; fail). }
    rewrite Hm in E. rewrite zrange_nth_error in E by lia.
    destruct (nth_error l m) as [a'|] eqn:Ea; [|discriminate]. inv E. now apply H.
Qed.

Lemma gathered_where U P j : part_ok P -> NoDup U -> (forall v, In v (p_ranks P) -> In v U) ->
  valid_index (p_shape P) j ->
  exists rest, where_eq (row_major (p_shape P) j) (gathered_ranks U (p_ranks P))
               = urank U (wk P j) :: rest.
Proof.
  intros HP HU Hin Hj. set (w := wk P j).
  assert (Hw : worker_at P j w) by now apply wk_worker.
  assert (HR : rank_in (p_ranks P) w = Some (row_major (p_shape P) j)).
  { destruct HP as (HN & _). apply rank_in_spec; auto. destruct Hw as [Hv Hw].
    pose proof (row_major_bound _ _ Hv). split; auto. lia. }
  destruct (rank_in_In U w) as [r Hr]. { apply Hin. eapply worker_at_In; eauto. }
  assert (Hall : forall p, In p (where_eq (row_major (p_shape P) j) (gathered_ranks U (p_ranks P))) -> p = r).
  { intros p Hp. apply where_eq_in in Hp as [Hp0 Hp]. unfold gathered_ranks in Hp.
    rewrite nth_error_map in Hp. destruct (nth_error U (Z.to_nat p)) as [u|] eqn:Eu; [|discriminate].
    simpl in Hp. inversion Hp as [Hp']. clear Hp.
    destruct (rank_in (p_ranks P) u) as [ru|] eqn:Eru.
    - assert (u = w).
      { apply rank_in_some in Eru as [_ Eru]. apply rank_in_some in HR as [_ HR].
        rewrite Hp' in Eru. congruence. }
      subst u. assert (rank_in U w = Some p) by (apply rank_in_spec; auto). congruence.
    - destruct Hw as [Hv _]. pose proof (row_major_bound _ _ Hv). lia. }
  assert (Hne : In r (where_eq (row_major (p_shape P) j) (gathered_ranks U (p_ranks P)))).
  { apply where_eq_in. apply rank_in_some in Hr as [Hr0 Hr]. split; auto.
    unfold gathered_ranks. rewrite nth_error_map, Hr. simpl. now rewrite HR. }
  unfold urank. rewrite Hr.
  destruct (where_eq _ _) as [|p rest] eqn:E; [easy|].
  exists rest. f_equal. apply Hall. now left.
Qed.

Lemma is_self_spec P v j : part_ok P -> valid_index (p_shape P) j ->
  is_self j (index_in P v) = (wk P j =? v).
Proof.
  intros HP Hj. unfold is_self. destruct (index_in P v) as [j'|] eqn:E.
  - apply index_in_spec in E; auto. destruct (zlist_eqb j j') eqn:Ez.
    + apply zlist_eqb_eq in Ez. subst j'. symmetry. apply Z.eqb_eq. now apply worker_wk.
    + symmetry. apply Z.eqb_neq. intros C.
      assert (j = j').
      { apply (worker_at_fun P j j' v); auto. rewrite <- C. now apply wk_worker. }
      subst. rewrite zlist_eqb_refl in Ez. discriminate.
  - symmetry. apply Z.eqb_neq. intros C. apply index_in_none in E. apply E. rewrite <- C.
    now apply wk_In.
Qed.

Lemma entries_spec U P v lo hi (start stop : warray) (lo' hi' : list Z -> list Z) ranks :
  part_ok P -> NoDup U -> (forall u, In u (p_ranks P) -> In u U) ->
  ranks = gathered_ranks U (p_ranks P) ->
  (forall j, valid_index (p_shape P) j -> start j = lo' j /\ stop j = hi' j) ->
  rmap (fun ri => overlap_entry lo hi (start (snd ri)) (stop (snd ri))
                    (is_self (snd ri) (index_in P v)) ranks (fst ri))
       (enumerate (range_index (p_shape P))) =
  Ok (map (fun j => ent U (compute_subtensor_intersection_slice lo hi (lo' j) (hi' j)) (wk P j) v)
          (range_index (p_shape P))).
Proof.
  intros HP HU Hin -> HB.
  apply (rmap_enumerate
    (fun ri => overlap_entry lo hi (start (snd ri)) (stop (snd ri))
                    (is_self (snd ri) (index_in P v)) (gathered_ranks U (p_ranks P)) (fst ri))).
  intros k j Hk. cbn [fst snd].
  assert (Hj : valid_index (p_shape P) j) by (apply in_range_index; eapply nth_error_In; eauto).
  destruct (HB j Hj) as [-> ->]. unfold overlap_entry, ent.
  destruct (compute_subtensor_intersection_slice _ _ _ _) as [sl|]; auto.
  rewrite is_self_spec by auto. destruct (wk P j =? v); auto.
  assert (Ek : Z.of_nat k = row_major (p_shape P) j).
  { pose proof (range_index_nth_row_major _ _ Hj) as E'. pose proof (row_major_bound _ _ Hj).
    assert (k = Z.to_nat (row_major (p_shape P) j)).
    { eapply NoDup_nth_error_inj; [apply range_index_nodup| |]; eauto. }
    lia. }
  rewrite Ek. destruct (gathered_where U P j HP HU Hin Hj) as [rest ->]. reflexivity.
Qed.

Lemma entries_opt U A B v (start stop start' stop' : warray) LA LB :
  part_ok A -> part_ok B -> NoDup U -> (forall u, In u (p_ranks B) -> In u U) ->
  (forall j, valid_index (p_shape A) j -> start j = block_lo LA j /\ stop j = block_hi LA j) ->
  (forall j, valid_index (p_shape B) j -> start' j = block_lo LB j /\ stop' j = block_hi LB j) ->
  match index_in A v with
  | Some j =>
      rmap (fun ri => overlap_entry (start j) (stop j) (start' (snd ri)) (stop' (snd ri))
                    (is_self (snd ri) (index_in B v)) (gathered_ranks U (p_ranks B)) (fst ri))
         (enumerate (range_index (p_shape B)))
  | None => Ok []
  end = Ok (ents U LA A LB B v).
Proof.
  intros HA HB HU Hin H H'. unfold ents. destruct (index_in A v) as [i|] eqn:E; auto.
  apply index_in_valid in E as [Hi _]; auto. destruct (H i Hi) as [-> ->].
  rewrite (entries_spec U B v _ _ start' stop' (block_lo LB) (block_hi LB)); auto.
Qed.

(** * Setup on a worker of the union *)

(** No extent-one dimension is to be split. *)
Definition splittable (n p : list Z) : Prop := Forall2 (fun a b => a = 1 -> b = 1) n p.

Lemma splittable_spec n p : length n = length p ->
  existsb (fun q => negb (fst q =? snd q) && (fst q =? 1)) (combine n p) = false <-> splittable n p.
Proof.
  unfold splittable. revert p. induction n as [|a n IH]; intros [|b p] H; try discriminate; simpl.
  - split; auto.
  - rewrite orb_false_iff. rewrite IH by (simpl in H; lia). split.
    + intros [E F]. constructor; auto. intros ->.
      destruct (Z.eqb_spec 1 b); auto. discriminate.
    + intros F. inv F. split; auto. destruct (Z.eqb_spec a 1) as [E|E]; [|now rewrite andb_false_r].
      rewrite E, H3 by auto. reflexivity.
Qed.

Section Setup.
  Variables Px Py : part.
  Variable Lx : layout.
  Variable shape : Z -> list Z.
  Hypothesis HPx : part_ok Px.
  Hypothesis HPy : part_ok Py.
  Hypothesis Hroot : p_root Px = p_root Py.
  Hypothesis Hdim : length (p_shape Px) = length (p_shape Py).
  Hypothesis HLx : layout_ok Lx.
  Hypothesis HWx : layout_workers Lx = p_shape Px.
  Hypothesis Hshape : forall v idx, worker_at Px idx v -> shape v = block_shape Lx idx.

  Let U := group_union (p_ranks Px) (p_ranks Py).
  Let n := layout_shape Lx.
  Let Ly := balanced n (p_shape Py).

  Lemma U_nodup : NoDup U.
  Proof. destruct HPx as (? & _), HPy as (? & _). now apply group_union_nodup. Qed.
  Lemma U_x v : In v (p_ranks Px) -> In v U.
  Proof. intros. apply group_union_in. auto. Qed.
  Lemma U_y v : In v (p_ranks Py) -> In v U.
  Proof. intros. apply group_union_in. auto. Qed.

  Lemma Lx_length : length Lx = length (p_shape Px).
  Proof. rewrite <- HWx. now rewrite layout_workers_length. Qed.
  Lemma n_length : length n = length (p_shape Py).
  Proof. unfold n. rewrite layout_shape_length, Lx_length. auto. Qed.
  Lemma Ly_length : length Ly = length (p_shape Py).
  Proof. unfold Ly, balanced. rewrite map2_length; apply n_length. Qed.
  Lemma n_nonneg : nonneg_shape n.
  Proof. unfold n. now apply layout_shape_nonneg. Qed.
  Lemma Ly_ok : layout_ok Ly.
  Proof. unfold Ly. apply balanced_ok; [apply HPy|apply n_nonneg]. Qed.
  Lemma Ly_workers : layout_workers Ly = p_shape Py.
  Proof. unfold Ly. apply balanced_workers; [apply HPy|apply n_length]. Qed.
  Lemma Ly_shape : layout_shape Ly = n.
  Proof. unfold Ly. apply balanced_shape; [apply HPy|apply n_nonneg|apply n_length]. Qed.

  Definition rinit0 : rinit :=
    mkrinit U (p_shape Px) (p_shape Py) (gathered_ranks U (p_ranks Px)) (gathered_ranks U (p_ranks Py)).

  Lemma init_spec v : In v U -> repartition_init Px Py v = Ok (Some rinit0).
  Proof.
    intros Hv. unfold repartition_init.
    assert (is_active (p_ranks Px) v || is_active (p_ranks Py) v = true) as ->.
    { apply orb_true_iff. rewrite !is_active_spec. now apply group_union_in. }
    cbn [negb]. unfold create_partition_union. rewrite Hroot, Z.eqb_refl. cbn [rbind].
    fold U.
    rewrite (broadcast_data_first U Px _ (p_shape Px)); auto using U_x. cbn [rbind].
    rewrite (broadcast_data_first U Py _ (p_shape Py)); auto using U_y. cbn [rbind].
    rewrite Hdim, Nat.eqb_refl. reflexivity.
  Qed.

  Lemma shape_length u : In u (p_ranks Px) -> length (shape u) = length (p_shape Px).
  Proof.
    intros Hu. destruct (worker_at_exists Px u HPx Hu) as [idx Hi]. rewrite (Hshape u idx Hi).
    rewrite block_shape_length; [apply Lx_length|]. destruct Hi as [Hi _].
    apply valid_index_length in Hi. rewrite Hi. symmetry. apply Lx_length.
  Qed.

  Lemma assembled_spec u : In u (p_ranks Px) -> assembled_shape Px shape u = Ok n.
  Proof.
    intros Hu. unfold assembled_shape. rewrite shape_length, Nat.ltb_irrefl by auto.
    assert (existsb (fun w => (length (shape w) <? length (p_shape Px))%nat) (p_ranks Px) = false) as ->.
    { destruct (existsb _ _) eqn:E; auto. apply existsb_exists in E as (w & Hw & C).
      rewrite shape_length, Nat.ltb_irrefl in C by auto. discriminate. }
    destruct (worker_at_exists Px u HPx Hu) as [idx Hi].
    apply (assemble_layout Px shape Lx u idx); auto.
  Qed.

  Lemma global_spec v : global_shape Px shape rinit0 v = Ok n.
  Proof.
    unfold global_shape.
    assert (exists own, (if is_active (p_ranks Px) v then assembled_shape Px shape v else Ok []) = Ok own) as [own ->].
    { destruct (is_active (p_ranks Px) v) eqn:E; eauto. apply is_active_spec in E.
      rewrite assembled_spec by auto. eauto. }
    cbn [rbind i_union rinit0].
    rewrite (broadcast_data_first U Px _ (Ok n)); auto using U_x, assembled_spec.
  Qed.

  Lemma x_shapes_spec v : x_shapes Px shape v = Ok (compute_subtensor_shapes_unbalanced (p_shape Px)
     (fun idx => shape (nth (Z.to_nat (cartesian_index_c (p_shape Px) idx)) (p_ranks Px) 0))).
  Proof.
    unfold x_shapes.
    assert (G : forall w, In w (p_ranks Px) -> bad_row Px shape w = false).
    { intros w Hw. unfold bad_row. now rewrite shape_length, Nat.eqb_refl. }
    assert (is_active (p_ranks Px) v && bad_row Px shape v = false) as ->.
    { destruct (is_active (p_ranks Px) v) eqn:E; auto. apply is_active_spec in E. now rewrite G. }
    destruct (existsb _ _) eqn:E; auto. apply existsb_exists in E as (w & Hw & C).
    rewrite G in C by auto. discriminate.
  Qed.

  Lemma x_row idx : valid_index (p_shape Px) idx ->
    shape (nth (Z.to_nat (cartesian_index_c (p_shape Px) idx)) (p_ranks Px) 0) = block_shape Lx idx.
  Proof.
    intros Hi. rewrite cartesian_index_c_row_major by now apply valid_index_length.
    apply Hshape. now apply wk_worker.
  Qed.

  Lemma x_boxes idx : valid_index (p_shape Px) idx ->
    let xs := compute_subtensor_shapes_unbalanced (p_shape Px)
     (fun idx => shape (nth (Z.to_nat (cartesian_index_c (p_shape Px) idx)) (p_ranks Px) 0)) in
    compute_subtensor_start_indices (length (p_shape Px)) xs idx = block_lo Lx idx /\
    compute_subtensor_stop_indices (length (p_shape Px)) xs idx = block_hi Lx idx.
  Proof.
    intros Hi. cbv zeta. rewrite <- Lx_length.
    assert (Hlen : forall w, length w = length Lx -> length (compute_subtensor_shapes_unbalanced (p_shape Px)
      (fun idx => shape (nth (Z.to_nat (cartesian_index_c (p_shape Px) idx)) (p_ranks Px) 0)) w) = length Lx).
    { intros w Hw. unfold compute_subtensor_shapes_unbalanced. rewrite <- Lx_length.
      assert (G : forall l acc, length acc = length Lx -> Forall (valid_index (p_shape Px)) l ->
        length (fold_left (fun acc idx => map2 Z.add acc
           (own_shape_array (length Lx) idx
             (shape (nth (Z.to_nat (cartesian_index_c (p_shape Px) idx)) (p_ranks Px) 0)) w)) l acc) = length Lx).
      { induction l as [|x l IH]; intros acc Ha Hl; simpl; auto. inv Hl. apply IH; auto.
        rewrite map2_length; auto. unfold own_shape_array.
        destruct (zlist_eqb x w); [|rewrite repeat_length; auto].
        rewrite x_row, block_shape_length; auto. apply valid_index_length in H1. now rewrite Lx_length. }
      apply G; [apply repeat_length|]. apply Forall_forall. intros i Hii. now apply in_range_index. }
    assert (Hval : forall w, valid_index (layout_workers Lx) w -> compute_subtensor_shapes_unbalanced (p_shape Px)
      (fun idx => shape (nth (Z.to_nat (cartesian_index_c (p_shape Px) idx)) (p_ranks Px) 0)) w = block_shape Lx w).
    { intros w Hw. rewrite HWx in Hw. rewrite unbalanced_shapes_spec; auto.
      - now apply x_row.
      - intros w' Hw'. rewrite x_row by auto. rewrite block_shape_length; [apply Lx_length|].
        apply valid_index_length in Hw'. now rewrite Lx_length. }
    split; [apply layout_start|apply layout_stop]; auto; now rewrite HWx.
  Qed.

  Lemma y_boxes idx : valid_index (p_shape Py) idx ->
    let ys := compute_subtensor_shapes_balanced n (p_shape Py) in
    compute_subtensor_start_indices (length (p_shape Py)) ys idx = block_lo Ly idx /\
    compute_subtensor_stop_indices (length (p_shape Py)) ys idx = block_hi Ly idx.
  Proof.
    intros Hi. cbv zeta. rewrite <- Ly_length.
    split; [apply layout_start|apply layout_stop]; auto using Ly_ok; rewrite ?Ly_workers; auto;
      rewrite ?Ly_length; try (intros; apply balanced_shapes_length; auto using n_length);
      (intros w Hw; rewrite balanced_shapes_spec by auto; unfold Ly;
       rewrite balanced_block_shape; auto using n_length; apply HPy).
  Qed.

  Definition rsetup0 (v : Z) : rsetup :=
    mkrsetup rinit0 (ents U Lx Px Ly Py v) (ents U Ly Py Lx Px v) (shape v)
      (match index_in Py v with Some j => block_shape Ly j | None => [] end).

  Lemma setup_spec v : splittable n (p_shape Py) -> repartition_setup Px Py shape rinit0 v = Ok (rsetup0 v).
  Proof.
    intros Hs. unfold repartition_setup. rewrite global_spec. cbn [rbind i_xshape i_yshape i_xranks i_yranks rinit0].
    assert (Nat.eqb (length (p_shape Px)) (length n) = true) as ->
      by (apply Nat.eqb_eq; rewrite n_length; auto).
    assert (Nat.eqb (length (p_shape Py)) (length n) = true) as ->
      by (apply Nat.eqb_eq; rewrite n_length; auto).
    cbn [negb].
    assert (existsb (fun p => negb (fst p =? snd p) && (fst p =? 1)) (combine n (p_shape Py)) = false) as ->.
    { apply splittable_spec; auto. apply n_length. }
    rewrite x_shapes_spec. cbn [rbind].
    set (xs := compute_subtensor_shapes_unbalanced _ _).
    assert (HX : forall j, valid_index (p_shape Px) j ->
      compute_subtensor_start_indices (length (p_shape Px)) xs j = block_lo Lx j /\
      compute_subtensor_stop_indices (length (p_shape Px)) xs j = block_hi Lx j) by apply x_boxes.
    assert (HY : forall j, valid_index (p_shape Py) j ->
      compute_subtensor_start_indices (length (p_shape Py)) (compute_subtensor_shapes_balanced n (p_shape Py)) j = block_lo Ly j /\
      compute_subtensor_stop_indices (length (p_shape Py)) (compute_subtensor_shapes_balanced n (p_shape Py)) j = block_hi Ly j)
      by apply y_boxes.
    unfold rsetup0.
    assert (EY : match index_in Py v with
                 | Some j => compute_subshape (p_shape Py) j n | None => [] end =
                 match index_in Py v with Some j => block_shape Ly j | None => [] end).
    { destruct (index_in Py v) as [j|] eqn:E; auto. apply index_in_spec in E as [Hj _]; auto.
      unfold Ly. symmetry. apply balanced_block_shape; auto using n_length. apply HPy. }
    rewrite EY. clear EY.
    rewrite (entries_opt U Px Py v (compute_subtensor_start_indices (length (p_shape Px)) xs)
               (compute_subtensor_stop_indices (length (p_shape Px)) xs) _ _ Lx Ly); auto using U_nodup, U_y.
    cbn [rbind].
    rewrite (entries_opt U Py Px v _ _ (compute_subtensor_start_indices (length (p_shape Px)) xs)
               (compute_subtensor_stop_indices (length (p_shape Px)) xs) Ly Lx); auto using U_nodup, U_x.
  Qed.

  Lemma prepare_spec v : splittable n (p_shape Py) -> In v U ->
    repartition_prepare Px Py shape v = Ok (Some (rsetup0 v)).
  Proof.
    intros Hs Hv. unfold repartition_prepare. rewrite init_spec by auto. cbn [rbind].
    now rewrite setup_spec.
  Qed.
End Setup.

Lemma prepare_outside Px Py shape v : ~ In v (group_union (p_ranks Px) (p_ranks Py)) ->
  repartition_prepare Px Py shape v = Ok None.
Proof.
  intros Hv. unfold repartition_prepare, repartition_init.
  assert (is_active (p_ranks Px) v || is_active (p_ranks Py) v = false) as ->; auto.
  apply orb_false_iff. rewrite !is_active_false. rewrite group_union_in in Hv. tauto.
Qed.
