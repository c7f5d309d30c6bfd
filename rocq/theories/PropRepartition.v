(** Repartition: C18 - C20. *)

From Coq Require Import RelationClasses.
From Verif Require Import Prelude ModelSlicing ModelDecomposition ModelPartition
  SpecIndex SpecLayout SpecPartition ProofSlicing ProofDecomposition ProofPartition
  Ring Tensor Blocks ModelCollectives ModelBuffer P2P Rounds ModelRepartition ProofRepartition
  ProofTransfer ProofRepartitionCalls.

(** * Vocabulary *)

(** Two partitions of one world of workers, of equal dimension, and a block
    layout over the first one of a tensor that the second one can split. *)
Definition repartition_given (world : list Z) (Px Py : part) (Lx : layout) : Prop :=
  NoDup world /\
  (forall v, In v (p_ranks Px) \/ In v (p_ranks Py) -> In v world) /\
  part_ok Px /\ part_ok Py /\ p_root Px = p_root Py /\
  length (p_shape Px) = length (p_shape Py) /\
  layout_ok Lx /\ layout_workers Lx = p_shape Px /\
  Forall2 (fun n p => n = 1 -> p = 1) (layout_shape Lx) (p_shape Py).

(** A worker of P_x or P_y. *)
Definition member (Px Py : part) (v : Z) : Prop := In v (p_ranks Px) \/ In v (p_ranks Py).

(** The tensors [x] are the blocks of [G]. *)
Definition holds_blocks {R : CRing} (P : part) (L : layout) (G : tensor R) (x : Z -> tensor R) : Prop :=
  tshape G = layout_shape L /\ forall idx v, worker_at P idx v -> teq (x v) (block L idx G).

(** The tensors [x] have the shapes of the blocks. *)
Definition has_shapes {R : CRing} (P : part) (L : layout) (x : Z -> tensor R) : Prop :=
  forall idx v, worker_at P idx v -> tshape (x v) = block_shape L idx.

(** Zero-volume result for an input: with [preserve_batch] the first extent is kept. *)
Definition empty_like {R : CRing} (preserve_batch : bool) (input t : tensor R) : Prop :=
  tshape t = if preserve_batch then [hd 0 (tshape input); 0] else [0].

(** Calls whose inputs have the structure the layer was set up for.  (With
    [preserve_batch] the first extent of every input of the union is read.) *)
Definition call_fits {R : CRing} (preserve_batch : bool) (Px Py : part) (Lx : layout) (c : @call R) : Prop :=
  match c with
  | CForward x _ => has_shapes Px Lx x /\
      (preserve_batch = true -> forall v, member Px Py v -> tshape (x v) <> [])
  | CBackward dy => has_shapes Py (balanced (layout_shape Lx) (p_shape Py)) dy /\
      (preserve_batch = true -> forall v, member Px Py v -> tshape (dy v) <> [])
  end.

(** [g] ends an execution of [rounds] from [init]. *)
Definition ends {S M} (world : list Z) (rounds : list (@round S M)) (init : Z -> S)
    (eager : Z -> Z -> Z -> nat -> bool) (g : @gst S M) : Prop :=
  exists n, run world (rounds_prog rounds) init eager n g /\ done world (rounds_prog rounds) g.

(** What a worker returned last. *)
Definition result_of {R : CRing} (g : @gst (@rst R) (@rmsg R)) (v : Z) : tensor R := r_out (wdata (gw g v)).
Definition grad_of {R : CRing} (g : @gst (@rst R) (@rmsg R)) (v : Z) : bool := r_outrg (wdata (gw g v)).

(** * Single calls *)

Section Given.
  Context {R : CRing}.
  Variables (world : list Z) (Px Py : part) (Lx : layout) (pb : bool) (shape : Z -> list Z).
  Hypothesis HG : repartition_given world Px Py Lx.
  Hypothesis Hshape : forall idx v, worker_at Px idx v -> shape v = block_shape Lx idx.

  Let Ly := balanced (layout_shape Lx) (p_shape Py).
  Let history := history_rounds (R := R) Px Py pb (setup_of Px Py shape).

  Lemma member_union v : member Px Py v <-> In v (union Px Py).
  Proof. unfold member, union. now rewrite group_union_in. Qed.

  Lemma given_prepare v : exists d, repartition_prepare Px Py shape v = Ok d /\ setup_of Px Py shape v = d.
  Proof.
    destruct HG as (H1 & H2 & H3 & H4 & H5 & H6 & H7 & H8 & H9).
    unfold setup_of. destruct (in_dec Z.eq_dec v (union Px Py)) as [Hv|Hv].
    - rewrite (prepare_spec Px Py Lx shape); eauto.
    - rewrite prepare_outside; eauto.
  Qed.

  Lemma given_async cs init : async_ok world eqS (history cs) init.
  Proof.
    destruct HG as (H1 & H2 & H3 & H4 & H5 & H6 & H7 & H8 & H9).
    apply (history_async Px Py Lx shape pb world); auto.
    intros v Hv. apply H2. now apply member_union.
  Qed.

  Lemma given_ends cs init eager g v : ends world (history cs) init eager g -> In v world ->
    eqS (wdata (gw g v)) (sync_rounds (history cs) init v).
  Proof. intros (n & Hr & Hd) Hv. eapply ao_result; eauto using given_async. Qed.

  Lemma hist_last pre c init v :
    sync_rounds (history (pre ++ [c])) init v =
    sync_rounds (history [c]) (sync_rounds (history pre) init) v.
  Proof. unfold history. now rewrite sync_history_app. Qed.

  Lemma default_shape (input t : tensor R) : (pb = true -> tshape input <> []) ->
    Ok t = match zero_volume pb (tshape input) with Ok t => Ok t | Raise _ => Ok (mkt [0] (fun _ => rzero)) end ->
    empty_like pb input t.
  Proof.
    intros H E. unfold empty_like, zero_volume in *. destruct pb.
    - destruct (tshape input) as [|b r]; [now specialize (H eq_refl)|]. inv E. reflexivity.
    - inv E. reflexivity.
  Qed.

  Lemma given_forward pre x rg init eager g G :
    ends world (history (pre ++ [CForward x rg])) init eager g ->
    call_fits pb Px Py Lx (CForward x rg) -> holds_blocks Px Lx G x ->
    (forall idx v, worker_at Py idx v ->
       teq (result_of g v) (block Ly idx G) /\ grad_of g v = rg (nth 0 (p_ranks Px) 0)) /\
    (forall v, member Px Py v -> ~ In v (p_ranks Py) ->
       empty_like pb (x v) (result_of g v) /\ grad_of g v = false) /\
    (forall v, In v world -> ~ member Px Py v ->
       teq (result_of g v) (x v) /\ grad_of g v = rg v).
  Proof.
    intros He [_ Hfit] [HGs Hb].
    destruct HG as (H1 & H2 & H3 & H4 & H5 & H6 & H7 & H8 & H9).
    assert (HV : forall v, In v world -> exists S0 : Z -> @rst R,
        eqS (wdata (gw g v)) (sync_rounds (history [CForward x rg]) S0 v)).
    { intros v Hv. exists (sync_rounds (history pre) init). rewrite <- hist_last.
      now apply (given_ends _ _ eager). }
    assert (HR := fun S0 v => forward_result (R := R) Px Py Lx shape pb (union Px Py) (fun _ H => H) H3 H4 H5 H6 H7 H8
                    (fun v idx => Hshape idx v) H9 x rg S0 v). cbv zeta in HR.
    assert (HLy : layout_workers Ly = p_shape Py) by (apply (Ly_workers Px Py Lx); auto).
    assert (HLyo : layout_ok Ly) by (apply (Ly_ok Py Lx); auto).
    assert (HLys : layout_shape Ly = layout_shape Lx) by (apply (Ly_shape Px Py Lx); auto).
    split; [|split].
    - intros j v Hj. assert (Hv : In v world) by (apply H2; right; eapply worker_at_In; eauto).
      destruct (HV v Hv) as (S0 & [E1 E2 E3 E4 E5 E6]).
      destruct (HR S0 v) as (_ & _ & K & _). fold history in K.
      assert (Ej : index_in Py v = Some j) by (apply index_in_spec; auto).
      destruct (K j Ej) as (K1 & K2 & K3). unfold result_of, grad_of. split.
      + apply (teq_trans _ _ _ (steq_teq _ _ E4)). split; [exact K2|].
        intros p Hp. rewrite K2 in Hp. fold Ly in K3, Hp.
        assert (Hjv : valid_index (layout_workers Ly) j) by (rewrite HLy; apply Hj).
        pose proof (point_in_block Ly j p Hjv Hp) as Hpt.
        pose proof (layout_tiles_inside Ly _ j HLyo Hjv Hpt) as Hg. rewrite HLys in Hg.
        destruct (layout_tiles_exists Lx _ H7 Hg) as (i & Hi & Hbi). pose proof Hi as Hi'. rewrite H8 in Hi'.
        rewrite (K3 p i Hp Hi' Hbi).
        destruct (local_point Lx i _ Hi Hbi) as [L1 L2].
        destruct (Hb i (wk Px i) (wk_worker _ _ H3 Hi')) as [B1 B2].
        rewrite B2 by (rewrite B1; exact L1). cbn [block tat]. now rewrite L2.
      + rewrite E5, K1. reflexivity.
    - intros v Hv Hny. assert (Hw : In v world) by (apply H2; auto).
      destruct (HV v Hw) as (S0 & [E1 E2 E3 E4 E5 E6]).
      destruct (HR S0 v) as (_ & _ & _ & K & _). fold history in K.
      destruct K as [K1 K2]; [now apply member_union| |].
      { destruct (index_in Py v) as [j|] eqn:Ej; auto. exfalso. apply Hny.
        apply index_in_valid in Ej as [Ej <-]; auto. now apply wk_In. }
      unfold result_of, grad_of. split; [|now rewrite E5].
      apply default_shape in K2; [|intros Hp; now apply Hfit].
      unfold empty_like in *. destruct E4 as [E4 _]. now rewrite E4.
    - intros v Hw Hnm. destruct (HV v Hw) as (S0 & [E1 E2 E3 E4 E5 E6]).
      destruct (HR S0 v) as (_ & _ & _ & _ & K). fold history in K.
      destruct K as [K1 K2]; [rewrite <- member_union; auto|].
      unfold result_of, grad_of. split; [|congruence].
      apply steq_teq. now rewrite <- K1.
  Qed.

  Lemma given_backward pre dy init eager g G :
    ends world (history (pre ++ [CBackward dy])) init eager g ->
    call_fits pb Px Py Lx (CBackward dy) -> holds_blocks Py Ly G dy ->
    (forall idx v, worker_at Px idx v -> teq (result_of g v) (block Lx idx G)) /\
    (forall v, member Px Py v -> ~ In v (p_ranks Px) -> empty_like pb (dy v) (result_of g v)) /\
    (forall v, In v world -> ~ member Px Py v -> teq (result_of g v) (dy v)).
  Proof.
    intros He [_ Hfit] [HGs Hb].
    destruct HG as (H1 & H2 & H3 & H4 & H5 & H6 & H7 & H8 & H9).
    assert (HV : forall v, In v world -> exists S0 : Z -> @rst R,
        eqS (wdata (gw g v)) (sync_rounds (history [CBackward dy]) S0 v)).
    { intros v Hv. exists (sync_rounds (history pre) init). rewrite <- hist_last.
      now apply (given_ends _ _ eager). }
    assert (HR := fun S0 v => backward_result (R := R) Px Py Lx shape pb H3 H4 H5 H6 H7 H8
                    (fun v idx => Hshape idx v) H9 dy S0 v). cbv zeta in HR.
    assert (HLy : layout_workers Ly = p_shape Py) by (apply (Ly_workers Px Py Lx); auto).
    assert (HLyo : layout_ok Ly) by (apply (Ly_ok Py Lx); auto).
    assert (HLys : layout_shape Ly = layout_shape Lx) by (apply (Ly_shape Px Py Lx); auto).
    split; [|split].
    - intros j v Hj. assert (Hv : In v world) by (apply H2; left; eapply worker_at_In; eauto).
      destruct (HV v Hv) as (S0 & [E1 E2 E3 E4 E5 E6]).
      destruct (HR S0 v) as (_ & _ & K & _). fold history in K.
      assert (Ej : index_in Px v = Some j) by (apply index_in_spec; auto).
      destruct (K j Ej) as (K1 & K2 & K3). unfold result_of.
      apply (teq_trans _ _ _ (steq_teq _ _ E4)). split; [exact K2|].
      intros p Hp. rewrite K2 in Hp. fold Ly in K3.
      assert (Hjv : valid_index (layout_workers Lx) j) by (rewrite H8; apply Hj).
      pose proof (point_in_block Lx j p Hjv Hp) as Hpt.
      pose proof (layout_tiles_inside Lx _ j H7 Hjv Hpt) as Hg. rewrite <- HLys in Hg.
      destruct (layout_tiles_exists Ly _ HLyo Hg) as (i & Hi & Hbi). pose proof Hi as Hi'. rewrite HLy in Hi'.
      rewrite (K3 p i Hp Hi' Hbi).
      destruct (local_point Ly i _ Hi Hbi) as [L1 L2].
      destruct (Hb i (wk Py i) (wk_worker _ _ H4 Hi')) as [B1 B2].
      rewrite B2 by (rewrite B1; exact L1). cbn [block tat]. now rewrite L2.
    - intros v Hv Hny. assert (Hw : In v world) by (apply H2; auto).
      destruct (HV v Hw) as (S0 & [E1 E2 E3 E4 E5 E6]).
      destruct (HR S0 v) as (_ & _ & _ & K & _). fold history in K.
      destruct K as [K1 K2]; [now apply member_union| |].
      { destruct (index_in Px v) as [j|] eqn:Ej; auto. exfalso. apply Hny.
        apply index_in_valid in Ej as [Ej <-]; auto. now apply wk_In. }
      unfold result_of. apply default_shape in K2; [|intros Hp; now apply Hfit].
      unfold empty_like in *. destruct E4 as [E4 _]. now rewrite E4.
    - intros v Hw Hnm. destruct (HV v Hw) as (S0 & [E1 E2 E3 E4 E5 E6]).
      destruct (HR S0 v) as (_ & _ & _ & _ & K). fold history in K.
      unfold result_of. apply steq_teq. rewrite <- K; [exact E4|rewrite <- member_union; auto].
  Qed.
End Given.

(** * C18 *)

(** Entry number [k] of the receive list of a worker covers the local point [p]. *)
Definition covers (d : rsetup) (p : list Z) (k : nat) : Prop :=
  exists sl sh partner, nth_error (s_yx d) k = Some (Some (sl, sh, partner)) /\
    Forall2 (fun s i => fst s <= i < snd s) sl p.

(** After any number of earlier calls, a forward call whose inputs are the blocks
    of G, laid out by an arbitrary layout, ends with the balanced blocks of G on
    P_y, in every execution.  The layer accepts its inputs, and every point of an
    output is covered by exactly one of the worker's transfers. *)
Definition C18_statement : Prop :=
  forall (R : CRing) (world : list Z) (Px Py : part) (Lx : layout) (preserve_batch : bool)
    (G : tensor R) (x : Z -> tensor R) (rg : Z -> bool),
    repartition_given world Px Py Lx ->
    holds_blocks Px Lx G x ->
    call_fits preserve_batch Px Py Lx (CForward x rg) ->
    let shape := fun v => tshape (x v) in
    let setup := setup_of Px Py shape in
    let Ly := balanced (tshape G) (p_shape Py) in
    (forall v, repartition_prepare Px Py shape v = Ok (setup v)) /\
    (forall pre init eager g,
       Forall (call_fits preserve_batch Px Py Lx) pre ->
       ends world (history_rounds Px Py preserve_batch setup (pre ++ [CForward x rg])) init eager g ->
       (forall idx v, worker_at Py idx v ->
          teq (result_of g v) (block Ly idx G) /\ grad_of g v = rg (nth 0 (p_ranks Px) 0)) /\
       (forall v, In v (p_ranks Px) -> ~ In v (p_ranks Py) ->
          empty_like preserve_batch (x v) (result_of g v) /\ grad_of g v = false) /\
       (forall v, In v world -> ~ member Px Py v ->
          teq (result_of g v) (x v) /\ grad_of g v = rg v)) /\
    (forall idx v p, worker_at Py idx v -> valid_index (block_shape Ly idx) p ->
       exists d, setup v = Some d /\ s_ylocal d = block_shape Ly idx /\ exists! k, covers d p k).

Lemma slice_Forall2 (sl : list slice) p :
  in_slice sl p = true <-> Forall2 (fun s i => fst s <= i < snd s) sl p.
Proof.
  unfold in_slice. revert p. induction sl as [|s sl IH]; intros [|i p]; cbn [length combine forallb Nat.eqb].
  - split; auto.
  - split; [discriminate|]. intros H; inv H.
  - split; [discriminate|]. intros H; inv H.
  - rewrite !andb_true_iff, Z.leb_le, Z.ltb_lt. cbn [fst snd].
    split.
    + intros (H1 & H2 & H3). constructor; auto. apply IH. now rewrite H1, H3.
    + intros H. inversion H as [|? ? ? ? Ha Hb]; subst. apply IH in Hb. apply andb_true_iff in Hb. tauto.
Qed.

Lemma C18_proof : C18_statement.
Proof.
  intros R world Px Py Lx pb G x rg HG Hx Hfit shape setup Ly.
  assert (Hsh : forall idx v, worker_at Px idx v -> shape v = block_shape Lx idx).
  { intros idx v H. apply (proj1 Hfit). auto. }
  pose proof HG as HG'. destruct HG' as (H1 & H2 & H3 & H4 & H5 & H6 & H7 & H8 & H9).
  assert (EG : tshape G = layout_shape Lx) by apply Hx. unfold Ly. rewrite EG. clear Ly.
  set (Ly := balanced (layout_shape Lx) (p_shape Py)).
  split; [|split].
  - intros v. destruct (given_prepare world Px Py Lx shape HG Hsh v) as (d & E1 & E2).
    unfold setup. now rewrite E1, E2.
  - intros pre init eager g _ He.
    destruct (given_forward world Px Py Lx pb shape HG Hsh pre x rg init eager g G He Hfit Hx) as (K1 & K2 & K3).
    split; [exact K1|]. split; [|exact K3]. intros v Hv. apply K2. now left.
  - intros j v p Hj Hp.
    exists (rsetup0 Px Py Lx shape v).
    assert (Hv : In v (union Px Py)) by (apply member_union; right; eapply worker_at_In; eauto).
    split; [unfold setup, setup_of; rewrite (prepare_spec Px Py Lx shape); auto|].
    assert (Ej : index_in Py v = Some j) by (apply index_in_spec; auto).
    unfold rsetup0, covers. cbn [s_ylocal s_yx]. rewrite Ej. split; [reflexivity|]. fold Ly.
    unfold ents. rewrite Ej.
    assert (HLy : layout_workers Ly = p_shape Py) by (apply (Ly_workers Px Py Lx); auto).
    assert (HLyo : layout_ok Ly) by (apply (Ly_ok Py Lx); auto).
    assert (HLys : layout_shape Ly = layout_shape Lx) by (apply (Ly_shape Px Py Lx); auto).
    assert (Hjv : valid_index (layout_workers Ly) j) by (rewrite HLy; apply Hj).
    assert (Hjp : valid_index (p_shape Py) j) by apply Hj.
    pose proof (point_in_block Ly j p Hjv Hp) as Hpt.
    pose proof (layout_tiles_inside Ly _ j HLyo Hjv Hpt) as Hg. rewrite HLys in Hg.
    destruct (layout_tiles_exists Lx _ H7 Hg) as (i & Hi & Hbi). pose proof Hi as Hi'. rewrite H8 in Hi'.
    assert (Hpl : length p = length Ly).
    { apply Forall2_length in Hp. rewrite block_shape_length in Hp; auto.
      apply Forall2_length in Hjv. now rewrite layout_workers_length in Hjv. }
    destruct (osl_hit Px Py Lx Ly H8 HLy (eq_sym HLys) i j _ Hi' Hjp Hbi Hpt) as (sa & sb & Ea & Eb).
    assert (Hk : exists k, nth_error (range_index (p_shape Px)) k = Some i).
    { apply In_nth_error. now apply in_range_index. }
    destruct Hk as (k & Hk).
    assert (E : forall k', (exists sl sh partner,
        nth_error (map (fun j' => ent (group_union (p_ranks Px) (p_ranks Py)) (osl Ly j Lx j') (wk Px j') v)
          (range_index (p_shape Px))) k' = Some (Some (sl, sh, partner)) /\
        Forall2 (fun (s : slice) i => fst s <= i < snd s) sl p) <-> k' = k).
    { intros k'. split.
      - intros (sl & sh & pr & E & Hc). rewrite nth_error_map in E.
        destruct (nth_error _ k') as [i'|] eqn:Ek'; [|discriminate]. inversion E as [E']. clear E.
        assert (Hi2 : valid_index (p_shape Px) i') by (apply in_range_index; eapply nth_error_In; eauto).
        unfold ent in E'. destruct (osl Ly j Lx i') as [sl'|] eqn:Eo; [|discriminate].
        injection E' as E1' _ _. subst sl'. apply slice_Forall2 in Hc.
        assert (Hc2 : in_slice sb p = true).
        { apply (osl_points Px Py Lx Ly H8 HLy (eq_sym HLys) i j sb p); auto. }
        assert (i' = i).
        { apply (osl_disjoint Px Py Lx Ly H7 H8 HLy (eq_sym HLys) i' i j sl sb p); auto. }
        subst i'. eapply NoDup_nth_error_inj; [apply (range_index_nodup (p_shape Px))| |]; eauto.
      - intros ->. exists sb, (compute_nd_slice_shape sb).
        eexists. split.
        + rewrite nth_error_map, Hk. cbn [option_map]. rewrite Eb. reflexivity.
        + apply slice_Forall2. apply (osl_points Px Py Lx Ly H8 HLy (eq_sym HLys) i j sb p); auto. }
    exists k. split.
    + now apply E.
    + intros k' Hk'. symmetry. now apply E.
Qed.

Theorem C18_repartition_preserves : C18_statement.
Proof. exact C18_proof. Qed.

(** * C19 *)

(** The sum over all workers of the inner products of their tensors. *)
Definition world_inner {R : CRing} (world : list Z) (a b : Z -> tensor R) : R :=
  sumf world (fun v => inner (a v) (b v)).

Definition C19_statement : Prop :=
  forall (R : CRing) (world : list Z) (Px Py : part) (Lx : layout) (preserve_batch : bool),
    repartition_given world Px Py Lx ->
    let Ly := balanced (layout_shape Lx) (p_shape Py) in
    let layer := fun shape => history_rounds (R := R) Px Py preserve_batch (setup_of Px Py shape) in
    (* adjoint *)
    (forall shape x rg dy pre pre' init init' eager eager' gf gb,
       (forall idx v, worker_at Px idx v -> shape v = block_shape Lx idx) ->
       call_fits preserve_batch Px Py Lx (CForward x rg) ->
       call_fits preserve_batch Px Py Lx (CBackward dy) ->
       (forall v, In v (p_ranks Py) -> ~ In v (p_ranks Px) -> zprod (tshape (x v)) = 0) ->
       Forall (call_fits preserve_batch Px Py Lx) (pre ++ pre') ->
       ends world (layer shape (pre ++ [CForward x rg])) init eager gf ->
       ends world (layer shape (pre' ++ [CBackward dy])) init' eager' gb ->
       (forall v, In v world -> ~ member Px Py v -> tshape (x v) = tshape (dy v)) ->
       world_inner world (result_of gf) dy = world_inner world x (result_of gb)) /\
    (* backward of forward *)
    (forall shape x rg pre pre' init init' eager eager' gf gb,
       (forall idx v, worker_at Px idx v -> shape v = block_shape Lx idx) ->
       call_fits preserve_batch Px Py Lx (CForward x rg) ->
       Forall (call_fits preserve_batch Px Py Lx) (pre ++ pre') ->
       ends world (layer shape (pre ++ [CForward x rg])) init eager gf ->
       ends world (layer shape (pre' ++ [CBackward (result_of gf)])) init' eager' gb ->
       (forall v, In v (p_ranks Px) -> teq (result_of gb v) (x v)) /\
       (forall v, In v (p_ranks Py) -> ~ In v (p_ranks Px) -> zprod (tshape (result_of gb v)) = 0) /\
       (forall v, In v world -> ~ member Px Py v -> teq (result_of gb v) (x v))) /\
    (* forward of backward *)
    (forall shape dy rg pre pre' init init' eager eager' gf gb,
       (forall idx v, worker_at Px idx v -> shape v = block_shape Lx idx) ->
       call_fits preserve_batch Px Py Lx (CBackward dy) ->
       Forall (call_fits preserve_batch Px Py Lx) (pre ++ pre') ->
       ends world (layer shape (pre ++ [CBackward dy])) init eager gb ->
       ends world (layer shape (pre' ++ [CForward (result_of gb) rg])) init' eager' gf ->
       forall v, In v (p_ranks Py) -> teq (result_of gf v) (dy v)) /\
    (* P_x to P_y and back by a second layer *)
    (forall shape shape' x rg rg' pre pre' init init' eager eager' g1 g2,
       Lx = balanced (layout_shape Lx) (p_shape Px) ->
       Forall2 (fun n p => n = 1 -> p = 1) (layout_shape Lx) (p_shape Px) ->
       (forall idx v, worker_at Px idx v -> shape v = block_shape Lx idx) ->
       (forall idx v, worker_at Py idx v -> shape' v = block_shape Ly idx) ->
       call_fits preserve_batch Px Py Lx (CForward x rg) ->
       Forall (call_fits preserve_batch Px Py Lx) pre ->
       Forall (call_fits preserve_batch Py Px Ly) pre' ->
       ends world (layer shape (pre ++ [CForward x rg])) init eager g1 ->
       ends world (history_rounds Py Px preserve_batch (setup_of Py Px shape')
                     (pre' ++ [CForward (result_of g1) rg'])) init' eager' g2 ->
       forall v, In v (p_ranks Px) -> teq (result_of g2 v) (x v)).

Lemma inner_empty {R : CRing} (a b : tensor R) : zprod (tshape a) = 0 -> inner a b = rzero.
Proof.
  intros H. unfold inner. apply sumf_zero. intros i Hi. apply in_indices in Hi.
  exfalso. enough (forall sh i, valid_index sh i -> 0 < zprod sh) as K by (apply K in Hi; lia).
  clear. induction 1; simpl; [lia|]. nia.
Qed.

Lemma sum_world {R : CRing} (world sub : list Z) (f : Z -> R) :
  NoDup world -> NoDup sub -> (forall v, In v sub -> In v world) ->
  (forall v, In v world -> ~ In v sub -> f v = rzero) ->
  sumf world f = sumf sub f.
Proof.
  intros H1 H2 H3 H4.
  transitivity (sumf world (fun v => if in_dec Z.eq_dec v sub then f v else rzero)).
  - apply sumf_ext. intros v Hv. destruct (in_dec Z.eq_dec v sub); auto.
  - transitivity (sumf (filter (fun v => if in_dec Z.eq_dec v sub then true else false) world) f).
    + rewrite sumf_filter. apply sumf_ext. intros v _. now destruct (in_dec Z.eq_dec v sub).
    + apply sumf_perm, NoDup_Permutation; auto.
      * now apply NoDup_filter.
      * intros v. rewrite filter_In. destruct (in_dec Z.eq_dec v sub); split; try easy; auto.
Qed.

Lemma add_zero_r {R : CRing} (a : R) : radd a rzero = a.
Proof. rewrite (Radd_comm (rth R)). apply (Radd_0_l (rth R)). Qed.
Lemma add_zero_l {R : CRing} (a : R) : radd rzero a = a.
Proof. apply (Radd_0_l (rth R)). Qed.

Lemma inner_members {R : CRing} (P : part) (L : layout) (G H : tensor R) (a b : Z -> tensor R) :
  part_ok P -> layout_ok L -> layout_workers L = p_shape P ->
  holds_blocks P L G a -> holds_blocks P L H b ->
  sumf (p_ranks P) (fun v => inner (a v) (b v)) = inner G H.
Proof.
  intros HP HL HW [G1 G2] [K1 K2]. rewrite (inner_blocks L HL G H) by auto.
  rewrite (ranks_wk P HP), sumf_map, HW. apply sumf_ext. intros i Hi. apply in_range_index in Hi.
  pose proof (wk_worker P i HP Hi) as Hw.
  pose proof (G2 _ _ Hw) as A. pose proof (K2 _ _ Hw) as B.
  rewrite (inner_teq_l _ _ _ A). apply inner_teq_r; auto.
  destruct B as [B _]. now rewrite B.
Qed.

Lemma glue_holds {R : CRing} (P : part) (L : layout) (x : Z -> tensor R) :
  part_ok P -> layout_ok L -> layout_workers L = p_shape P -> has_shapes P L x ->
  exists G, holds_blocks P L G x.
Proof.
  intros HP HL HW Hs. exists (glue L (fun idx => x (wk P idx))). split; [reflexivity|].
  intros idx v Hv. rewrite <- (worker_wk _ _ _ Hv).
  apply (glue_block L HL (fun idx => x (wk P idx)) idx).
  - rewrite HW. apply Hv.
  - apply Hs. rewrite (worker_wk _ _ _ Hv). exact Hv.
Qed.

Lemma in_worker P v : part_ok P -> In v (p_ranks P) -> exists idx, worker_at P idx v.
Proof.
  intros HP Hv. rewrite (ranks_wk P HP) in Hv. apply in_map_iff in Hv as (i & <- & Hi).
  exists i. apply wk_worker; auto. now apply in_range_index.
Qed.

Lemma empty_volume {R : CRing} pb (x t : tensor R) : empty_like pb x t -> zprod (tshape t) = 0.
Proof. unfold empty_like. intros ->. destruct pb; simpl; lia. Qed.

(** Results are fit to be fed back. *)
Lemma shaped_nonempty {R : CRing} (P : part) (L : layout) (x : Z -> tensor R) idx v :
  part_ok P -> layout_workers L = p_shape P -> worker_at P idx v ->
  tshape (x v) = block_shape L idx -> tshape (x v) <> [].
Proof.
  intros HP HW Hv E. rewrite E. intros C. apply (f_equal (@length Z)) in C.
  destruct Hv as [Hv _]. apply Forall2_length in Hv.
  assert (length L = length (p_shape P)) by now rewrite <- HW, layout_workers_length.
  rewrite block_shape_length in C by congruence. destruct HP as (_ & HP & _).
  destruct (p_shape P); [congruence|simpl in *; lia].
Qed.

Lemma C19_proof : C19_statement.
Proof.
  intros R world Px Py Lx pb HG Ly layer.
  pose proof HG as HG'. destruct HG' as (H1 & H2 & H3 & H4 & H5 & H6 & H7 & H8 & H9).
  assert (HLy : layout_workers Ly = p_shape Py) by (apply (Ly_workers Px Py Lx); auto).
  assert (HLyo : layout_ok Ly) by (apply (Ly_ok Py Lx); auto).
  assert (HLys : layout_shape Ly = layout_shape Lx) by (apply (Ly_shape Px Py Lx); auto).
  assert (Fx : forall shape x rg pre init eager g,
     (forall idx v, worker_at Px idx v -> shape v = block_shape Lx idx) ->
     call_fits pb Px Py Lx (CForward x rg) -> ends world (layer shape (pre ++ [CForward x rg])) init eager g ->
     exists G, holds_blocks Px Lx G x /\ holds_blocks Py Ly G (result_of g) /\
       (forall v, member Px Py v -> ~ In v (p_ranks Py) -> empty_like pb (x v) (result_of g v)) /\
       (forall v, In v world -> ~ member Px Py v -> teq (result_of g v) (x v))).
  { intros shape x rg pre init eager g Hsh Hf He.
    destruct (glue_holds Px Lx x H3 H7 H8 (proj1 Hf)) as (G & HGx). exists G. split; auto.
    destruct (given_forward world Px Py Lx pb shape HG Hsh pre x rg init eager g G He Hf HGx) as (K1 & K2 & K3).
    split; [split|split].
    - rewrite HLys. apply HGx.
    - intros idx v Hv. now apply K1.
    - intros v Hv Hn. now apply K2.
    - intros v Hv Hn. now apply K3. }
  assert (Bx : forall shape dy pre init eager g,
     (forall idx v, worker_at Px idx v -> shape v = block_shape Lx idx) ->
     call_fits pb Px Py Lx (CBackward dy) -> ends world (layer shape (pre ++ [CBackward dy])) init eager g ->
     forall G, holds_blocks Py Ly G dy -> holds_blocks Px Lx G (result_of g) /\
       (forall v, member Px Py v -> ~ In v (p_ranks Px) -> empty_like pb (dy v) (result_of g v)) /\
       (forall v, In v world -> ~ member Px Py v -> teq (result_of g v) (dy v))).
  { intros shape dy pre init eager g Hsh Hf He G HGd.
    destruct (given_backward world Px Py Lx pb shape HG Hsh pre dy init eager g G He Hf HGd) as (K1 & K2 & K3).
    split; [split|split].
    - rewrite <- HLys. apply HGd.
    - intros idx v Hv. now apply K1.
    - exact K2.
    - exact K3. }
  assert (fit_y : forall shape x rg pre init eager g,
     (forall idx v, worker_at Px idx v -> shape v = block_shape Lx idx) ->
     call_fits pb Px Py Lx (CForward x rg) -> ends world (layer shape (pre ++ [CForward x rg])) init eager g ->
     has_shapes Py Ly (result_of g) /\
     (pb = true -> forall v, member Px Py v -> tshape (result_of g v) <> [])).
  { intros shape x rg pre init eager g Hsh Hf He.
    destruct (Fx _ _ _ _ _ _ _ Hsh Hf He) as (G & _ & HGy & K2 & _).
    assert (Hs : has_shapes Py Ly (result_of g)) by (intros idx v Hv; now apply HGy).
    split; auto. intros Hp v Hv. destruct (in_dec Z.eq_dec v (p_ranks Py)) as [Hy|Hy].
    - destruct (in_worker Py v H4 Hy) as (idx & Hw).
      eapply (shaped_nonempty Py Ly); eauto.
    - rewrite (K2 v Hv Hy). now rewrite Hp. }
  assert (fit_x : forall shape dy pre init eager g,
     (forall idx v, worker_at Px idx v -> shape v = block_shape Lx idx) ->
     call_fits pb Px Py Lx (CBackward dy) -> ends world (layer shape (pre ++ [CBackward dy])) init eager g ->
     has_shapes Px Lx (result_of g) /\
     (pb = true -> forall v, member Px Py v -> tshape (result_of g v) <> [])).
  { intros shape dy pre init eager g Hsh Hf He.
    destruct (glue_holds Py Ly dy H4 HLyo HLy (proj1 Hf)) as (G & HGd).
    destruct (Bx _ _ _ _ _ _ Hsh Hf He G HGd) as (HGx & K2 & _).
    assert (Hs : has_shapes Px Lx (result_of g)) by (intros idx v Hv; now apply HGx).
    split; auto. intros Hp v Hv. destruct (in_dec Z.eq_dec v (p_ranks Px)) as [Hy|Hy].
    - destruct (in_worker Px v H3 Hy) as (idx & Hw).
      eapply (shaped_nonempty Px Lx); eauto.
    - rewrite (K2 v Hv Hy). now rewrite Hp. }
  split; [|split; [|split]].
  - intros shape x rg dy pre pre' init init' eager eager' gf gb Hsh Hf Hf' Hz _ He He' Hout.
    destruct (Fx _ _ _ _ _ _ _ Hsh Hf He) as (G & HGx & HGy & Ke & Ko).
    destruct (glue_holds Py Ly dy H4 HLyo HLy (proj1 Hf')) as (D & HGd).
    destruct (Bx _ _ _ _ _ _ Hsh Hf' He' D HGd) as (HGb & Je & Jo).
    unfold world_inner.
    set (outside := filter (fun v => negb (is_active (union Px Py) v)) world).
    assert (Hsplit : forall f : Z -> R, sumf world f =
      radd (sumf world (fun v => if is_active (union Px Py) v then f v else rzero)) (sumf outside f)).
    { intros f. unfold outside. rewrite sumf_filter, <- sumf_add. apply sumf_ext. intros v _.
      destruct (is_active _ v); simpl; [symmetry; apply add_zero_r|symmetry; apply add_zero_l]. }
    rewrite (Hsplit (fun v => inner (result_of gf v) (dy v))),
      (Hsplit (fun v => inner (x v) (result_of gb v))). f_equal.
    + rewrite (sum_world world (p_ranks Py)), (sum_world world (p_ranks Px)).
      * transitivity (inner G D).
        -- rewrite <- (inner_members Py Ly G D (result_of gf) dy) by auto. apply sumf_ext. intros v Hv.
           replace (is_active (union Px Py) v) with true; auto.
           symmetry. apply is_active_spec, member_union. now right.
        -- rewrite <- (inner_members Px Lx G D x (result_of gb)) by auto. apply sumf_ext. intros v Hv.
           replace (is_active (union Px Py) v) with true; auto.
           symmetry. apply is_active_spec, member_union. now left.
      * auto.
      * apply H3.
      * intros v Hv. apply H2. now left.
      * intros v Hv Hn. destruct (is_active (union Px Py) v) eqn:E; auto.
        apply is_active_spec, member_union in E. apply inner_empty.
        destruct E as [E|E]; [contradiction|]. now apply Hz.
      * auto.
      * apply H4.
      * intros v Hv. apply H2. now right.
      * intros v Hv Hn. destruct (is_active (union Px Py) v) eqn:E; auto.
        apply is_active_spec, member_union in E. apply inner_empty.
        apply (empty_volume pb (x v)). now apply Ke.
    + apply sumf_ext. intros v Hv. unfold outside in Hv. apply filter_In in Hv as [Hv Hn].
      assert (Hm : ~ member Px Py v).
      { rewrite member_union. apply is_active_false. now destruct (is_active _ v). }
      rewrite (inner_teq_l _ _ _ (Ko v Hv Hm)). symmetry. apply inner_teq_r; auto.
      destruct (Jo v Hv Hm) as [J _]. now rewrite J, Hout.
  - intros shape x rg pre pre' init init' eager eager' gf gb Hsh Hf _ He He'.
    destruct (Fx _ _ _ _ _ _ _ Hsh Hf He) as (G & HGx & HGy & Ke & Ko).
    pose proof (fit_y _ _ _ _ _ _ _ Hsh Hf He) as Hfy.
    destruct (Bx _ _ _ _ _ _ Hsh Hfy He' G HGy) as (HGb & Je & Jo).
    split; [|split].
    + intros v Hv. destruct (in_worker Px v H3 Hv) as (idx & Hw).
      apply (teq_trans _ (block Lx idx G)); [now apply HGb|]. apply teq_sym. now apply HGx.
    + intros v Hv Hn. eapply empty_volume. apply Je; auto. now right.
    + intros v Hv Hn. apply (teq_trans _ (result_of gf v)); auto.
  - intros shape dy rg pre pre' init init' eager eager' gf gb Hsh Hf _ He He' v Hv.
    destruct (glue_holds Py Ly dy H4 HLyo HLy (proj1 Hf)) as (D & HGd).
    destruct (Bx _ _ _ _ _ _ Hsh Hf He D HGd) as (HGb & Je & Jo).
    pose proof (fit_x _ _ _ _ _ _ Hsh Hf He) as Hfx.
    destruct (given_forward world Px Py Lx pb shape HG Hsh pre' (result_of gb) rg init' eager' gf D He' Hfx HGb) as (K1 & _).
    destruct (in_worker Py v H4 Hv) as (idx & Hw).
    apply (teq_trans _ (block Ly idx D)); [now apply K1|]. apply teq_sym. now apply HGd.
  - intros shape shape' x rg rg' pre pre' init init' eager eager' g1 g2 HB Hsp Hsh Hsh' Hf _ _ He He' v Hv.
    destruct (Fx _ _ _ _ _ _ _ Hsh Hf He) as (G & HGx & HGy & Ke & Ko).
    pose proof (fit_y _ _ _ _ _ _ _ Hsh Hf He) as [Hy1 Hy2].
    assert (HG2 : repartition_given world Py Px Ly).
    { split; [auto|]. split; [intros u [Hu|Hu]; apply H2; auto|]. split; [auto|]. split; [auto|].
      split; [auto|]. split; [auto|]. split; [auto|]. split; [auto|]. now rewrite HLys. }
    assert (Hf2 : call_fits pb Py Px Ly (CForward (result_of g1) rg')).
    { split; auto. intros Hp u Hu. apply Hy2; auto. destruct Hu; [right|left]; auto. }
    destruct (given_forward world Py Px Ly pb shape' HG2 Hsh' pre' (result_of g1) rg' init' eager' g2 G He' Hf2 HGy) as (K1 & _).
    destruct (in_worker Px v H3 Hv) as (idx & Hw).
    specialize (K1 idx v Hw) as [K1 _]. rewrite HLys, <- HB in K1.
    apply (teq_trans _ _ _ K1). apply teq_sym. now apply HGx.
Qed.

Theorem C19_repartition_adjoint_inverse : C19_statement.
Proof. exact C19_proof. Qed.

(** * C20 *)

(** The request array of a round: one entry per posted receive or send, and the
    null paddings. *)
Definition request_array {S M} (l : list (@action S M)) : list (@action S M) :=
  filter (fun a => match a with ALocal _ => false | _ => true end) l.

Definition same_results {R : CRing} (a b : list (tensor R * bool)) : Prop :=
  Forall2 (fun p q => teq (fst p) (fst q) /\ snd p = snd q) a b.

(** For every history of calls on one layer, every execution can go on until it
    ends, and ends; [Waitany] has then returned every posted request exactly
    once, and never a null padding; what all calls return does not depend on the
    execution. *)
Definition C20_statement : Prop :=
  forall (R : CRing) (world : list Z) (Px Py : part) (Lx : layout) (preserve_batch : bool)
    (shape : Z -> list Z) (calls : list (@call R)) (init : Z -> @rst R),
    repartition_given world Px Py Lx ->
    (forall idx v, worker_at Px idx v -> shape v = block_shape Lx idx) ->
    Forall (call_fits preserve_batch Px Py Lx) calls ->
    let rounds := history_rounds Px Py preserve_batch (setup_of Px Py shape) calls in
    let prog := rounds_prog rounds in
    (forall eager, exists N, forall n g, run world prog init eager n g -> (n <= N)%nat) /\
    (forall eager n g, run world prog init eager n g -> ~ done world prog g ->
       exists g', step world prog eager g g') /\
    (forall eager g, ends world rounds init eager g ->
       NoDup (glog g) /\
       forall v r i, In (v, r, i) (glog g) <->
         In v world /\ exists a, nth_error (request_array (nth r (prog v) [])) i = Some a /\ a <> ANull) /\
    (forall eager eager' g g', ends world rounds init eager g -> ends world rounds init eager' g' ->
       forall v, In v world -> same_results (r_hist (wdata (gw g v))) (r_hist (wdata (gw g' v)))) /\
    (forall eager g, ends world rounds init eager g -> forall v, In v world ->
       (length (r_hist (wdata (gw g v))) = length (r_hist (init v)) + length calls)%nat).

Lemma request_at_array {S M} (prog : Z -> list (list (@action S M))) w r i :
  request_at prog w r i <->
  exists a, nth_error (request_array (nth r (prog w) [])) i = Some a /\ a <> ANull.
Proof.
  unfold request_at, code, reqs_of. generalize (nth r (prog w) []) as l. revert i.
  intros i l. revert i. induction l as [|a l IH]; intros i.
  - simpl. split; intros (q & Hq & _); destruct i; discriminate.
  - destruct a; cbn [request_array filter flat_map req_of app]; try (apply IH).
    + destruct i; [|apply IH]. simpl. split; intros (q & Hq & Hn); eexists; (split; [reflexivity|discriminate]).
    + destruct i; [|apply IH]. simpl. split; intros (q & Hq & Hn); eexists; (split; [reflexivity|discriminate]).
    + destruct i; [|apply IH]. simpl. split; intros (q & Hq & Hn); inv Hq; congruence.
Qed.

Lemma C20_proof : C20_statement.
Proof.
  intros R world Px Py Lx pb shape calls init HG Hsh _ rounds prog.
  pose proof (given_async (R := R) world Px Py Lx pb shape HG Hsh calls init) as HA. fold rounds in HA.
  split; [|split; [|split; [|split]]].
  - apply (ao_bounded _ _ _ _ HA).
  - apply (ao_progress _ _ _ _ HA).
  - intros eager g (n & Hr & Hd). destruct (ao_log _ _ _ _ HA eager n g Hr Hd) as [L1 L2].
    split; auto. intros v r i. rewrite L2, request_at_array. reflexivity.
  - intros eager eager' g g' (n & Hr & Hd) (n' & Hr' & Hd') v Hv.
    pose proof (ao_result _ _ _ _ HA _ _ _ v Hr Hd Hv) as [_ _ _ _ _ E].
    pose proof (ao_result _ _ _ _ HA _ _ _ v Hr' Hd' Hv) as [_ _ _ _ _ E'].
    unfold same_results. revert E E'. generalize (r_hist (wdata (gw g v))), (r_hist (wdata (gw g' v))).
    generalize (r_hist (sync_rounds rounds init v)). clear.
    intros l a b E. revert b. induction E as [|p q a l [Hp Hq] E IH]; intros b E'; inversion E' as [|p' ? b' ? [Hp' Hq'] E2]; subst;
      constructor; auto. split; [|congruence].
    apply (teq_trans _ (fst q)); [now apply steq_teq|]. apply teq_sym. now apply steq_teq.
  - intros eager g (n & Hr & Hd) v Hv.
    pose proof (ao_result _ _ _ _ HA _ _ _ v Hr Hd Hv) as [_ _ _ _ _ E].
    apply Forall2_length in E. rewrite E. clear E.
    destruct HG as (H1 & H2 & H3 & H4 & H5 & H6 & H7 & H8 & H9).
    unfold rounds. clear rounds prog HA Hr Hd g. revert init.
    induction calls as [|c cs IH]; intros init; [simpl; lia|].
    change (c :: cs) with ([c] ++ cs). rewrite sync_history_app, IH. cbn [length app].
    enough (E : exists o, r_hist (sync_rounds (history_rounds Px Py pb (setup_of Px Py shape) [c]) init v) =
                 r_hist (init v) ++ [o]) by (destruct E as [o E]; rewrite E, app_length; simpl; lia).
    destruct c as [x rg|dy].
    + destruct (forward_result (R := R) Px Py Lx shape pb (union Px Py) (fun _ H => H) H3 H4 H5 H6 H7 H8
                  (fun v idx => Hsh idx v) H9 x rg init v) as (E & _). eexists. exact E.
    + destruct (backward_result (R := R) Px Py Lx shape pb H3 H4 H5 H6 H7 H8
                  (fun v idx => Hsh idx v) H9 dy init v) as (E & _). eexists. exact E.
Qed.

Theorem C20_repartition_schedules : C20_statement.
Proof. exact C20_proof. Qed.

(** * A concrete repartition

    A 4x5 tensor laid out over workers 10 and 11 in rows [3; 1], sent to a 1x3
    partition of workers 11, 12 and 13; worker 14 takes no part. *)
Definition ex_Px : part := mkpart 0 [10; 11] [2; 1].
Definition ex_Py : part := mkpart 0 [11; 12; 13] [1; 3].
Definition ex_Lx : layout := [[3; 1]; [5]].
Definition ex_world : list Z := [10; 11; 12; 13; 14].
Definition ex_G : tensor Zring := @mkt Zring [4; 5] (fun i => 10 * nth 0 i 0 + nth 1 i 0).
Definition ex_x (v : Z) : tensor Zring :=
  if v =? 10 then @mkt Zring [3; 5] (fun i => 10 * nth 0 i 0 + nth 1 i 0)
  else if v =? 11 then @mkt Zring [1; 5] (fun i => 10 * (3 + nth 0 i 0) + nth 1 i 0)
  else @mkt Zring [0] (fun _ => 0).
Definition ex_rg (v : Z) : bool := v =? 10.

Lemma ex_given : repartition_given ex_world ex_Px ex_Py ex_Lx.
Proof.
  split; [repeat constructor; simpl; lia|].
  split; [simpl; intros; lia|].
  split; [repeat split; try discriminate; repeat constructor; simpl; lia|].
  split; [repeat split; try discriminate; repeat constructor; simpl; lia|].
  split; [reflexivity|]. split; [reflexivity|].
  split; [repeat constructor; lia|]. split; [reflexivity|].
  repeat constructor; simpl; lia.
Qed.

Lemma ex_workers idx v : worker_at ex_Px idx v -> (idx = [0; 0] /\ v = 10) \/ (idx = [1; 0] /\ v = 11).
Proof.
  intros [Hi Hv]. inversion Hi as [|? a ? t Ha Ht]; subst. inversion Ht as [|? b ? t' Hb Ht']; subst.
  inversion Ht'; subst. assert (b = 0) by lia. subst.
  assert (a = 0 \/ a = 1) as [-> | ->] by lia; simpl in Hv; inv Hv; auto.
Qed.

Lemma ex_blocks : holds_blocks ex_Px ex_Lx ex_G ex_x.
Proof.
  split; [reflexivity|]. intros idx v H.
  destruct (ex_workers _ _ H) as [[-> ->]|[-> ->]].
  - split; [reflexivity|]. intros i Hi. inversion Hi as [|? a ? t Ha Ht]; subst.
    inversion Ht as [|? b ? t' Hb Ht']; subst. inversion Ht'; subst. cbn. lia.
  - split; [reflexivity|]. intros i Hi. inversion Hi as [|? a ? t Ha Ht]; subst.
    inversion Ht as [|? b ? t' Hb Ht']; subst. inversion Ht'; subst.
    change (10 * (3 + a) + b = 10 * (3 + a) + (0 + b)). lia.
Qed.

Lemma ex_fits : call_fits true ex_Px ex_Py ex_Lx (CForward ex_x ex_rg).
Proof.
  split.
  - intros idx v H. destruct (ex_workers _ _ H) as [[-> ->]|[-> ->]]; reflexivity.
  - intros _ v [H|H]; simpl in H; intuition (subst; discriminate).
Qed.

(** The hypotheses of C18 - C20 hold, worker 11's transfers are one row of its
    own and three rows of worker 10, and in lock-step worker 13 obtains the last
    column of the tensor and worker 10 an empty tensor. *)
Definition ex_setup := setup_of ex_Px ex_Py (fun v => tshape (ex_x v)).
Definition ex_end (v : Z) : @rst Zring :=
  sync_rounds (history_rounds ex_Px ex_Py true ex_setup [CForward ex_x ex_rg])
    (fun _ => mkrst (@mkt Zring [] (fun _ => 0)) false false (@mkt Zring [] (fun _ => 0)) false []) v.

Example C18_example :
  repartition_given ex_world ex_Px ex_Py ex_Lx /\ holds_blocks ex_Px ex_Lx ex_G ex_x /\
  call_fits true ex_Px ex_Py ex_Lx (CForward ex_x ex_rg) /\
  option_map s_yx (ex_setup 11) = Some
    [Some ([(0, 3); (0, 2)], [3; 2], PRank 0); Some ([(3, 4); (0, 2)], [1; 2], PSelf)] /\
  tshape (r_out (ex_end 13)) = [4; 1] /\
  map (tat (r_out (ex_end 13))) (indices [4; 1]) = [4; 14; 24; 34] /\
  r_outrg (ex_end 13) = true /\
  tshape (r_out (ex_end 10)) = [3; 0] /\ tshape (r_out (ex_end 14)) = [0].
Proof.
  split; [exact ex_given|]. split; [exact ex_blocks|]. split; [exact ex_fits|].
  vm_compute. repeat split.
Qed.

Definition ex_dy (v : Z) : tensor Zring :=
  if (v =? 11) || (v =? 12) then @mkt Zring [4; 2] (fun i => nth 0 i 0 - nth 1 i 0 + v)
  else if v =? 13 then @mkt Zring [4; 1] (fun i => nth 0 i 0)
  else @mkt Zring [0; 0] (fun _ => 0).

(** Backward after forward in one history: worker 10 obtains the first three rows
    of the gradient. *)
Definition ex_end2 (v : Z) : @rst Zring :=
  sync_rounds (history_rounds ex_Px ex_Py true ex_setup [CForward ex_x ex_rg; CBackward ex_dy])
    (fun _ => mkrst (@mkt Zring [] (fun _ => 0)) false false (@mkt Zring [] (fun _ => 0)) false []) v.

Example C19_example :
  call_fits true ex_Px ex_Py ex_Lx (CBackward ex_dy) /\
  (forall v, In v (p_ranks ex_Py) -> ~ In v (p_ranks ex_Px) -> zprod (tshape (ex_x v)) = 0) /\
  tshape (r_out (ex_end2 10)) = [3; 5] /\
  map (tat (r_out (ex_end2 10))) [[1; 0]; [1; 1]; [1; 2]; [1; 3]; [1; 4]] = [12; 11; 13; 12; 1] /\
  world_inner ex_world (fun v => r_out (ex_end v)) ex_dy =
  world_inner ex_world ex_x (fun v => r_out (ex_end2 v)) /\
  world_inner ex_world (fun v => r_out (ex_end v)) ex_dy = 3668.
Proof.
  split.
  { split.
    - intros idx v [Hi Hv]. inversion Hi as [|? a ? t Ha Ht]; subst.
      inversion Ht as [|? b ? t' Hb Ht']; subst. inversion Ht'; subst. assert (a = 0) by lia. subst.
      assert (b = 0 \/ b = 1 \/ b = 2) as [-> |[-> | ->]] by lia; simpl in Hv; inv Hv; reflexivity.
    - intros _ v [H|H]; simpl in H; intuition (subst; discriminate). }
  split; [intros v Hv Hn; simpl in *; intuition (subst; reflexivity)|].
  vm_compute. repeat split.
Qed.

(** An execution of that history: the requests of the forward round of worker 11
    are a receive (1) from worker 10, paddings (0) for its own part and two sends
    (2). *)
Example C20_example :
  Forall (call_fits true ex_Px ex_Py ex_Lx) [CForward ex_x ex_rg; CBackward ex_dy] /\
  map (fun a => match a with ARecv s t _ => (1, s, t) | ASend d t _ => (2, d, t)
                | ANull => (0, 0, 0) | ALocal _ => (3, 0, 0) end)
      (request_array (nth 2 (rounds_prog (history_rounds (R := Zring) ex_Px ex_Py true ex_setup
                              [CForward ex_x ex_rg; CBackward ex_dy]) 11) [])) =
  [(1, 10, 111); (0, 0, 0); (0, 0, 0); (2, 12, 111); (2, 13, 111)].
Proof.
  split.
  - constructor; [exact ex_fits|]. constructor; [|constructor]. apply C19_example.
  - vm_compute. reflexivity.
Qed.

Print Assumptions C18_repartition_preserves.
Print Assumptions C19_repartition_adjoint_inverse.
Print Assumptions C20_repartition_schedules.
