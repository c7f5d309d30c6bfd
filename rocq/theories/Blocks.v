(** Blocks of a global tensor under a layout, and sums over them. *)

From Verif Require Import Prelude SpecIndex SpecLayout ModelSlicing ProofSlicing ProofDecomposition Ring Tensor.

(** The block that worker index [idx] owns of the global tensor [G]. *)
Definition block {R : CRing} (L : layout) (idx : list Z) (G : tensor R) : tensor R :=
  mkt (block_shape L idx) (fun p => tat G (vadd (block_lo L idx) p)).

Section Blocks.
  Context {R : CRing}.
  Variable L : layout.
  Hypothesis HL : layout_ok L.

  Lemma point_in_block idx p : valid_index (layout_workers L) idx -> valid_index (block_shape L idx) p ->
    in_box (block_lo L idx) (block_hi L idx) (vadd (block_lo L idx) p).
  Proof.
    intros Hi Hp. pose proof (Forall2_length _ _ _ Hi) as Hlen. rewrite layout_workers_length in Hlen.
    rewrite block_hi_lo by auto. apply box_local_global; auto.
    now rewrite block_lo_length, block_shape_length.
  Qed.

  Lemma local_point idx g : valid_index (layout_workers L) idx -> in_box (block_lo L idx) (block_hi L idx) g ->
    valid_index (block_shape L idx) (vsub g (block_lo L idx)) /\ vadd (block_lo L idx) (vsub g (block_lo L idx)) = g.
  Proof.
    intros Hi Hg. pose proof (Forall2_length _ _ _ Hi) as Hlen. rewrite layout_workers_length in Hlen.
    rewrite block_hi_lo in Hg by auto. apply box_global_local; auto.
    now rewrite block_lo_length, block_shape_length.
  Qed.

  Lemma back_point idx p : valid_index (layout_workers L) idx -> valid_index (block_shape L idx) p ->
    vsub (vadd (block_lo L idx) p) (block_lo L idx) = p.
  Proof.
    intros Hi Hp. pose proof (Forall2_length _ _ _ Hi) as Hlen. rewrite layout_workers_length in Hlen.
    apply vadd_vsub. rewrite block_lo_length by auto. apply Forall2_length in Hp.
    rewrite block_shape_length in Hp by auto. auto.
  Qed.

  (** The owner of a global point. *)
  Definition in_boxb (lo hi g : list Z) : bool :=
    Nat.eqb (length lo) (length g) && Nat.eqb (length hi) (length g) &&
    forallb (fun k => (nth k lo 0 <=? nth k g 0) && (nth k g 0 <? nth k hi 0)) (seq 0 (length g)).

  Lemma in_boxb_spec lo hi g : in_boxb lo hi g = true <-> in_box lo hi g.
  Proof.
    unfold in_boxb, in_box. rewrite !andb_true_iff, !Nat.eqb_eq, forallb_forall. split.
    - intros [[H1 H2] H]. split; [auto|]. split; [auto|]. intros k Hk.
      specialize (H k). rewrite in_seq in H. breflect. specialize (H ltac:(lia)). breflect. lia.
    - intros (H1 & H2 & H). split; [auto|]. intros k Hk. apply in_seq in Hk.
      specialize (H k ltac:(lia)). apply andb_true_iff. lia.
  Qed.

  Definition owner (g : list Z) : list Z :=
    match find (fun i => in_boxb (block_lo L i) (block_hi L i) g) (range_index (layout_workers L)) with
    | Some i => i
    | None => []
    end.

  Lemma owner_unique g idx : valid_index (layout_workers L) idx ->
    in_box (block_lo L idx) (block_hi L idx) g -> owner g = idx.
  Proof.
    intros Hi Hg. unfold owner. destruct (find _ _) as [i|] eqn:E.
    - apply find_some in E as [E1 E2]. apply in_range_index in E1. apply in_boxb_spec in E2.
      eapply layout_tiles_unique; eauto.
    - exfalso. apply find_none with (x := idx) in E; [|now apply in_range_index].
      apply in_boxb_spec in Hg. congruence.
  Qed.

  (** The global tensor whose blocks are given. *)
  Definition glue (x : list Z -> tensor R) : tensor R :=
    mkt (layout_shape L) (fun g => tat (x (owner g)) (vsub g (block_lo L (owner g)))).

  Lemma glue_block x idx : valid_index (layout_workers L) idx -> tshape (x idx) = block_shape L idx ->
    teq (x idx) (block L idx (glue x)).
  Proof.
    intros Hi Hs. split; auto. intros p Hp. rewrite Hs in Hp. cbn [block glue tat].
    rewrite (owner_unique _ idx) by auto using point_in_block. now rewrite back_point.
  Qed.

  Lemma block_sum f :
    sumf (indices (layout_shape L)) f =
    sumf (range_index (layout_workers L)) (fun i =>
      sumf (indices (block_shape L i)) (fun p => f (vadd (block_lo L i) p) : R)).
  Proof.
    set (l := flat_map (fun i => map (fun p => (i, p)) (indices (block_shape L i)))
                (range_index (layout_workers L))).
    assert (Hl : forall i p, In (i, p) l <-> valid_index (layout_workers L) i /\ valid_index (block_shape L i) p).
    { intros i p. unfold l. rewrite in_flat_map. split.
      - intros (j & Hj & H). apply in_map_iff in H as (q & E & Hq). inv E.
        apply in_range_index in Hj. apply in_indices in Hq. auto.
      - intros [Hi Hp]. exists i. split; [now apply in_range_index|]. apply in_map_iff.
        exists p. split; auto. now apply in_indices. }
    rewrite (sumf_reindex l (indices (layout_shape L)) (fun q => vadd (block_lo L (fst q)) (snd q)) f).
    - unfold l. rewrite sumf_flat_map. apply sumf_ext. intros i _. now rewrite sumf_map.
    - unfold l. apply NoDup_flat_map.
      + apply range_index_nodup.
      + intros i _. apply FinFun.Injective_map_NoDup; [|apply indices_nodup].
        intros a b E. now inv E.
      + intros i i' q _ _ H H'. apply in_map_iff in H as (a & <- & _), H' as (b & E & _). now inv E.
    - apply indices_nodup.
    - intros [i p] H. apply Hl in H as [Hi Hp]. cbn [fst snd]. apply in_indices.
      eapply layout_tiles_inside; eauto using point_in_block.
    - intros [i p] [i' p'] H H' E. apply Hl in H as [Hi Hp], H' as [Hi' Hp']. cbn [fst snd] in E.
      assert (i = i').
      { eapply (layout_tiles_unique L (vadd (block_lo L i) p)); eauto using point_in_block.
        rewrite E. now apply point_in_block. }
      subst i'. f_equal. rewrite <- (back_point i p), <- (back_point i p'), E by auto. auto.
    - intros g Hg. apply in_indices in Hg. destruct (layout_tiles_exists L g HL Hg) as (i & Hi & Hb).
      destruct (local_point i g Hi Hb) as [H1 H2].
      exists (i, vsub g (block_lo L i)). split; auto. now apply Hl.
  Qed.

  (** The inner product of two global tensors is the sum of those of their blocks. *)
  Lemma inner_blocks (G H : tensor R) : tshape G = layout_shape L ->
    inner G H = sumf (range_index (layout_workers L)) (fun i => inner (block L i G) (block L i H)).
  Proof. intros E. unfold inner at 1. rewrite E, block_sum. reflexivity. Qed.
End Blocks.
