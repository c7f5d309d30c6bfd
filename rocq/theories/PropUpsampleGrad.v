(** The backward pass of the upsampling layer is the adjoint of its forward pass
    (C49). *)

From Coq Require Import QArith Qcanon.
From Verif Require Import Prelude SpecIndex SpecLayout SpecPartition SpecHalo ModelSlicing ModelDecomposition
  ModelPartition ProofSlicing ProofDecomposition ProofPartition PropDecomposition Ring Tensor ModelCollectives PropCollectives PropExchange
  ModelUtilities PropUtilities Blocks P2P Rounds ModelRepartition ProofTransfer PropRepartition ModelHaloMixin ProofHaloMixin
  ModelHaloExchange PropHaloExchange ModelFeatureLayer ProofFeatureLayer PropFeatureLayer ModelInterpolate ProofInterpolate
  PropInterpolate PropBatchNorm ModelScalars ModelUpsample SpecInterpolate ProofUpsample ProofUpsampleLayer PropUpsample
  ProofUpsampleOutput PropUpsampleLayer ModelGradients ProofGradients ModelUpsampleGrad.
Local Open Scope Z_scope.

(** * C49 *)

Definition C49_statement : Prop :=
  forall (R : CRing) (weight : Qc -> R) (world : list Z) (P : part) (a : upsample_args exact_types)
    (X Y : list Z) (x dy : Z -> tensor R),
    NoDup world -> (forall v, In v (p_ranks P) -> In v world) -> part_ok P ->
    length X = length (p_shape P) -> (3 <= length X <= 5)%nat -> pos_shape X ->
    upsample_output_shape a X = Ok Y -> nth 0 Y 0 = nth 0 X 0 -> nth 1 Y 0 = nth 1 X 0 ->
    (forall j, (2 <= j < length X)%nat -> sensible (asked a) (nth j X 0) (nth j Y 0)) ->
    (forall j, (j < length X)%nat -> nth j (p_shape P) 0 <= nth j Y 0) ->   (* every worker has outputs *)
    (u_align a = None \/ nth 0 (p_shape P) 0 = 1 /\ nth 1 (p_shape P) 0 = 1) ->
    (forall idx v, worker_at P idx v -> tshape (x v) = block_shape (balanced X (p_shape P)) idx /\
                                        tshape (dy v) = block_shape (balanced Y (p_shape P)) idx) ->
    (forall v, In v world -> ~ In v (p_ranks P) -> tshape (dy v) = tshape (x v)) ->
    let shape v := tshape (x v) in
    let arg := upsample_argument exact_types P a shape x in
    let back := upsample_back_argument exact_types weight P a shape (fun v => tshape (arg v)) dy in
    let plan := upsample_plan exact_types P a shape in
    let layer := history_rounds P (fun v => tshape (arg v)) (fun v => e_recv (plan v)) (fun v => e_send (plan v)) in
    (* nothing raises before the halo layer... *)
    (forall v, In v world -> upsample_input exact_types P a shape x v = Ok (arg v) /\
       upsample_cotangent exact_types weight P a shape (fun v => tshape (arg v)) dy v = Ok (back v)) /\
    (* ... whose exchange is safe (C27)... *)
    halo_safe R world P (fun v => tshape (arg v)) (fun v => e_recv (plan v)) (fun v => e_send (plan v)) /\
    (* ... and whatever the histories and interleavings of the forward and the backward pass: *)
    forall pre pre' init init' eager eager' gf gb,
      same_calls P arg pre -> same_calls P arg pre' ->
      ends world (layer (pre ++ [HForward arg])) init eager gf ->
      ends world (layer (pre' ++ [HBackward back])) init' eager' gb ->
      exists y dx : Z -> tensor R,
        (forall v, In v world ->
           upsample_output exact_types weight P a shape x (halo_result gf) v = Ok (y v) /\ tshape (y v) = tshape (dy v) /\
           upsample_gradient exact_types P a shape dy (halo_result gb) v = Ok (dx v) /\ tshape (dx v) = tshape (x v)) /\
        world_inner world y dy = world_inner world x dx.

(** Workers outside the partition keep what they give to the halo exchange. *)
Lemma halo_inactive {R : CRing} world P L H shape recv send pre c (x : Z -> tensor R) init eager g v :
  c = HForward x \/ c = HBackward x ->
  halo_given world P L H -> planned P L H shape recv send ->
  ends world (history_rounds P shape recv send (pre ++ [c])) init eager g -> In v world -> ~ In v (p_ranks P) ->
  steq (halo_result g v) (x v).
Proof.
  intros Hc HG HP He Hv Ha.
  assert (K : exists rd l, (rd = forward_round P shape recv send \/ rd = backward_round P shape recv send) /\
    Forall (fun i => (i < length L)%nat) l /\ call_rounds P shape recv send c = [load_round x] ++ map rd l ++ [store_round]).
  { destruct Hc as [-> | ->].
    - exists (forward_round P shape recv send), (seq 0 (length (p_shape P))). split; [auto|]. split; [exact (dims_ok world P L H HG)|reflexivity].
    - exists (backward_round P shape recv send), (rev (seq 0 (length (p_shape P)))). split; [auto|].
      split; [exact (dims_rev_ok world P L H HG)|reflexivity]. }
  destruct K as (rd & l & Hrd & Hl & Ec).
  destruct (ends_result world P L H shape recv send HG HP (map rd l) x pre c init eager g v Hv Ec He) as (S0 & E & _).
  destruct (keep (R := R) world P L H shape recv send HG HP rd l (loaded x S0) Hrd Hl) as [_ K]. rewrite K, loaded_t in E by auto. exact E.
Qed.

Section Main.
  Context {R : CRing}.
  Variable weight : Qc -> R.
  Variables (world : list Z) (P : part) (a : upsample_args exact_types) (X Y : list Z) (x dy : Z -> tensor R).
  Hypothesis HN : NoDup world.
  Hypothesis HI : forall v, In v (p_ranks P) -> In v world.
  Hypothesis HU : usable P a X Y.
  Hypothesis HS : forall idx v, worker_at P idx v -> tshape (x v) = block_shape (balanced X (p_shape P)) idx /\
                                                     tshape (dy v) = block_shape (balanced Y (p_shape P)) idx.
  Let L := balanced X (p_shape P).
  Let H := up_halos P a X Y.
  Let shape v := tshape (x v).
  Let arg := upsample_argument exact_types P a shape x.
  Let back := upsample_back_argument exact_types weight P a shape (fun v => tshape (arg v)) dy.
  Let plan := upsample_plan exact_types P a shape.

  (** The setup, the padded tensor and what is left of it. *)
  Lemma gr_setup idx v : worker_at P idx v -> exists u, upsample_setup exact_types P a shape v = Ok (Some u) /\
      v_info u = info P a X Y idx /\ e_recv (plan v) = recv_plan H idx /\ e_send (plan v) = send_plan H idx /\
      e_halo (v_info u) = recv_plan H idx /\
      map2 Z.sub (v_x_stop u) (v_x_start u) = needed_shape P a X Y idx /\
      map2 Z.sub (v_y_stop u) (v_y_start u) = block_shape (balanced Y (p_shape P)) idx.
  Proof.
    intros Hv. pose proof (proj1 Hv) as Hi.
    destruct (setup_spec P a X Y (us_part _ _ _ _ HU) (us_nonneg _ _ _ _ HU) (us_len _ _ _ _ HU) (us_out _ _ _ _ HU)
                        (us_Ynonneg _ _ _ _ HU) shape (fun i w Hw => proj1 (HS i w Hw)) idx v Hv)
      as (u & Eu & E1 & E2 & E3 & E4 & E5 & Ls1 & Ls2 & En).
    exists u. split; auto. split; auto. unfold plan, upsample_plan. rewrite Eu, E1.
    pose proof (up_recv P a X Y HU idx Hi) as Er.
    split; [exact Er|]. split; [exact (up_send P a X Y HU idx Hi)|]. split; [exact Er|]. split.
    - apply list_eq_nth with (d := 0); [rewrite map2_length; unfold needed_shape; rewrite ?vec_length; lia|].
      intros j Hj. rewrite map2_length in Hj by lia. rewrite Ls2 in Hj. rewrite map2_nth with (da := 0) (db := 0) by lia.
      destruct (En j Hj) as [-> ->]. unfold needed_shape. now rewrite vec_nth.
    - rewrite E4, E5. exact (us_local_y P a X Y HU idx Hi).
  Qed.

  (** [e]: any tensor of the extents of the padded one. *)
  Lemma gr_pad idx v : worker_at P idx v ->
    upsample_input exact_types P a shape x v = Ok (arg v) /\ tshape (arg v) = padded_shape L H idx /\
    forall e : tensor R, tshape e = padded_shape L H idx ->
      exists d, pad_backward (recv_plan H idx) e = Ok d /\ tshape d = tshape (x v) /\ inner (arg v) e = inner (x v) d.
  Proof.
    intros Hv. destruct (gr_setup idx v Hv) as (u & Eu & Ei & _ & _ & Eh & _). pose proof (proj1 Hv) as Hi.
    destruct (HS idx v Hv) as [Ex _]. fold L in Ex.
    pose proof (up_idx P a X Y HU idx Hi) as El.
    pose proof (up_L P a X Y HU) as LL. pose proof (up_H P a X Y) as LH. fold L in LL. fold H in LH.
    assert (L1 : length (recv_plan H idx) = length X) by (unfold recv_plan; rewrite map2_length; lia).
    assert (L2 : length (tshape (x v)) = length X) by (rewrite Ex, block_shape_length; lia).
    assert (Nn : Forall (fun p => 0 <= fst p /\ 0 <= snd p) (recv_plan H idx)).
    { apply Forall_forall. intros p Hp. apply In_nth with (d := (0, 0)) in Hp as (j & Hj & <-). rewrite L1 in Hj.
      rewrite recv_plan_nth by lia. unfold H. rewrite (up_at P a X Y).
      + unfold up_halo. cbn [fst snd]. lia.
      + auto.
      + apply (us_valid_nth P a X Y HU); auto. }
    assert (Sp : padded_shape L H idx = map2 (fun n p => n + fst p + snd p) (tshape (x v)) (recv_plan H idx)).
    { pose proof (up_padded_shape P a X Y HU idx Hi) as Ep. fold L H in Ep. rewrite <- Ep. unfold exchanged_shape. fold L.
      rewrite (up_recv P a X Y HU idx Hi), Ex. fold H.
      assert (L3 : length (block_shape L idx) = length X) by (rewrite block_shape_length; lia).
      apply list_eq_nth with (d := 0); [rewrite !map2_length; lia|]. intros j Hj. rewrite map2_length in Hj by lia.
      rewrite map2_nth with (da := (0, 0)) (db := 0) by lia. rewrite map2_nth with (da := 0) (db := (0, 0)) by lia. lia. }
    destruct (pad_if_needed rzero (recv_plan H idx) (x v)) as (t & E1 & E2 & _); [lia|auto|].
    assert (EI : upsample_input exact_types P a shape x v = Ok t).
    { unfold upsample_input. rewrite Eu. cbn [rbind]. unfold upsample_padded. rewrite Eh. exact E1. }
    assert (EA : arg v = t) by (unfold arg, upsample_argument; now rewrite EI). rewrite EA. split; auto. split; [now rewrite Sp|].
    intros e Se. destruct (pad_adjoint (recv_plan H idx) (x v) e) as (t' & d & F1 & F2 & F3 & F4); [lia|auto|now rewrite Se|].
    exists d. split; auto. split; auto. rewrite E1 in F1. injection F1 as ->. exact F4.
  Qed.

  (** [e]: any tensor of the extents of the exchanged one. *)
  Lemma gr_kernel idx v : worker_at P idx v ->
    upsample_cotangent exact_types weight P a shape (fun v => tshape (arg v)) dy v = Ok (back v) /\
    tshape (back v) = padded_shape L H idx /\
    forall e : Z -> tensor R, tshape (e v) = padded_shape L H idx ->
      exists y, upsample_output exact_types weight P a shape x e v = Ok y /\ tshape y = tshape (dy v) /\
                inner y (dy v) = inner (e v) (back v).
  Proof.
    intros Hv. destruct (gr_setup idx v Hv) as (u & Eu & Ei & _ & _ & Eh & Mx & My). pose proof (proj1 Hv) as Hi.
    destruct (HS idx v Hv) as [_ Ed]. destruct (gr_pad idx v Hv) as (_ & Sa & _).
    destruct (us_local P a X Y HU idx Hi) as (nb & nc & xs & ys & M1 & M2 & M3 & M4 & M5 & M6).
    pose proof (up_padded_shape P a X Y HU idx Hi) as Ep. fold L H in Ep.
    destruct (us_slice P a X Y HU idx Hi) as [S1 S2].
    assert (HLS : local_shapes nb nc xs ys (v_x_start u) (v_x_stop u) (v_y_start u) (v_y_stop u)).
    { split; [auto|]. split; [auto|]. split; [auto|]. split; [auto|]. rewrite Mx, My. split; auto. }
    set (sl := e_needed (info P a X Y idx)) in *.
    assert (Lsl : length sl = length X) by (apply info_needed_length; auto; exact (us_len _ _ _ _ HU)).
    assert (Lp : length (padded_shape L H idx) = length X) by (rewrite <- Ep; exact (exchanged_length P a X Y HU idx Hi)).
    assert (Hsl : forall j, (j < length sl)%nat -> 0 <= fst (nth j sl (0, 0)) /\ snd (nth j sl (0, 0)) <= nth j (padded_shape L H idx) 0).
    { intros j Hj. rewrite Lsl in Hj. rewrite <- Ep, (exchanged_nth P a X Y HU idx j Hi Hj).
      destruct (us_first_last P a X Y HU j (nth j idx 0) Hj (us_valid_nth P a X Y HU idx j Hi Hj)) as [F1 F2].
      destruct (slice_placed P a X Y (us_part _ _ _ _ HU) (us_nonneg _ _ _ _ HU) (us_len _ _ _ _ HU) (us_out _ _ _ _ HU) (us_Ynonneg _ _ _ _ HU) idx j Hi Hj F1 F2)
          as (K1 & K2 & K3 & K4 & K5 & K6 & K7). fold sl in K1, K2, K3, K4, K5, K6, K7. split; lia. }
    (* backward *)
    destruct (C37_proof R exact weight (kernel_mode a) nb nc xs ys (v_x_start u) (v_x_stop u) (v_x_global u) (v_y_start u) (v_y_stop u)
                (v_y_global u) (mkt (nb :: nc :: xs) (fun _ => rzero)) (dy v) HLS eq_refl ltac:(now rewrite Ed)) as (_ & d & _ & Eb & _ & Sd & _).
    assert (EC : upsample_cotangent exact_types weight P a shape (fun v => tshape (arg v)) dy v = Ok (slice_backward (padded_shape L H idx) sl d)).
    { unfold upsample_cotangent. rewrite Eu. cbn [rbind]. change (f_kernel exact_types) with exact. rewrite Eb. cbn [rbind].
      rewrite Sa, Ei. fold sl. rewrite <- Ep, S1. reflexivity. }
    assert (EB : back v = slice_backward (padded_shape L H idx) sl d) by (unfold back, upsample_back_argument; now rewrite EC).
    rewrite EB. split; auto.
    assert (Sd' : tshape d = compute_nd_slice_shape sl) by (rewrite Sd, S2, M1; reflexivity).
    split.
    - pose proof (slice_adjoint (mkt (padded_shape L H idx) (fun _ => rzero)) d sl) as [E _]; cbn [tshape]; auto. lia.
    - intros e Se. pose proof (slice_adjoint (e v) d sl) as [_ E]; rewrite ?Se; auto; [lia|]. rewrite Se in E.
      assert (Er : upsample_needed u (e v) = read_slice (e v) sl) by (unfold upsample_needed; rewrite Se, Ei; fold sl; now rewrite <- Ep, S1).
      assert (Sr : tshape (read_slice (e v) sl) = nb :: nc :: xs) by (cbn [read_slice tshape]; now rewrite S2).
      destruct (C37_proof R exact weight (kernel_mode a) nb nc xs ys (v_x_start u) (v_x_stop u) (v_x_global u) (v_y_start u) (v_y_stop u)
                (v_y_global u) (read_slice (e v) sl) (dy v) HLS Sr ltac:(now rewrite Ed)) as (y & d' & Ef & Eb' & Sy & Sd2 & Ea).
      rewrite Eb in Eb'. injection Eb' as <-. exists y. split.
      + unfold upsample_output. rewrite Eu. cbn [rbind]. rewrite Er. exact Ef.
      + split; [auto|]. now rewrite Ea.
  Qed.

  Lemma gr_given : halo_given world P L H.
  Proof.
    split; [auto|]. split; [auto|]. split; [apply HU|].
    split; [apply balanced_ok; [exact (up_pos P a X Y HU)|exact (us_nonneg _ _ _ _ HU)]|].
    split; [apply balanced_workers; [exact (up_pos P a X Y HU)|exact (us_len _ _ _ _ HU)]|exact (up_halos_ok P a X Y HU)].
  Qed.

  Lemma gr_planned : planned P L H (fun v => tshape (arg v)) (fun v => e_recv (plan v)) (fun v => e_send (plan v)).
  Proof.
    intros idx v Hv. destruct (gr_pad idx v Hv) as (_ & E & _). destruct (gr_setup idx v Hv) as (_ & _ & _ & E1 & E2 & _). auto.
  Qed.

  Lemma gr_inactive v : ~ In v (p_ranks P) -> upsample_setup exact_types P a shape v = Ok None.
  Proof. intros Hv. unfold upsample_setup. apply index_in_none in Hv. now rewrite Hv. Qed.

  Lemma gr_calls pre c : same_calls P arg pre -> (c = HForward arg \/ c = HBackward back) ->
    Forall (call_ok P L H) (pre ++ [c]).
  Proof.
    intros Hpre Hc. apply Forall_app. split.
    - eapply Forall_impl; [|exact Hpre]. intros cl Hcl i' v' Hv'. pose proof (Hcl v' (worker_at_In P i' v' Hv')) as E.
      pose proof (proj1 (proj2 (gr_pad i' v' Hv'))) as E'. cbv zeta. destruct cl; congruence.
    - constructor; [|constructor]. intros i' v' Hv'. destruct Hc as [-> | ->].
      + apply (gr_pad i' v' Hv').
      + apply (gr_kernel i' v' Hv').
  Qed.

  Lemma gr_worker v : In v (p_ranks P) -> exists idx, worker_at P idx v.
  Proof. apply worker_at_exists. apply HU. Qed.

  Lemma gr_start : forall v, In v world -> upsample_input exact_types P a shape x v = Ok (arg v) /\
       upsample_cotangent exact_types weight P a shape (fun v => tshape (arg v)) dy v = Ok (back v).
  Proof.
    intros v Hv. destruct (in_dec Z.eq_dec v (p_ranks P)) as [Hin|Hout].
    - destruct (gr_worker v Hin) as [idx Hi]. split; [apply (gr_pad idx v Hi)|apply (gr_kernel idx v Hi)].
    - pose proof (gr_inactive v Hout) as E. unfold back, upsample_back_argument, upsample_cotangent, arg, upsample_argument, upsample_input.
      rewrite E. auto.
  Qed.

  Hypothesis HO : forall v, In v world -> ~ In v (p_ranks P) -> tshape (dy v) = tshape (x v).

  Lemma gr_main pre pre' init init' eager eager' gf gb :
      same_calls P arg pre -> same_calls P arg pre' ->
      ends world (history_rounds P (fun v => tshape (arg v)) (fun v => e_recv (plan v)) (fun v => e_send (plan v)) (pre ++ [HForward arg])) init eager gf ->
      ends world (history_rounds P (fun v => tshape (arg v)) (fun v => e_recv (plan v)) (fun v => e_send (plan v)) (pre' ++ [HBackward back])) init' eager' gb ->
      exists y dx : Z -> tensor R,
        (forall v, In v world ->
           upsample_output exact_types weight P a shape x (halo_result gf) v = Ok (y v) /\ tshape (y v) = tshape (dy v) /\
           upsample_gradient exact_types P a shape dy (halo_result gb) v = Ok (dx v) /\ tshape (dx v) = tshape (x v)) /\
        world_inner world y dy = world_inner world x dx.
  Proof.
    intros Hp Hp' Hf Hb.
    destruct (C26_proof R world P L H _ _ _ pre pre' arg back init init' eager eager' gf gb gr_given (up_halos_fit P a X Y HU) gr_planned
                (gr_calls pre _ Hp (or_introl eq_refl)) (gr_calls pre' _ Hp' (or_intror eq_refl))) as [Sh Ad]; auto.
    { intros v Hv Hout. pose proof (gr_inactive v Hout) as E.
      unfold back, upsample_back_argument, upsample_cotangent, arg, upsample_argument, upsample_input. rewrite E. cbn [rbind]. symmetry. auto. }
    set (y := fun v => match upsample_output exact_types weight P a shape x (halo_result gf) v with Ok t => t | Raise _ => x v end).
    set (dx := fun v => match upsample_gradient exact_types P a shape dy (halo_result gb) v with Ok t => t | Raise _ => x v end).
    exists y, dx.
    assert (K : forall v, In v world ->
           (upsample_output exact_types weight P a shape x (halo_result gf) v = Ok (y v) /\ tshape (y v) = tshape (dy v) /\
            upsample_gradient exact_types P a shape dy (halo_result gb) v = Ok (dx v) /\ tshape (dx v) = tshape (x v)) /\
           inner (y v) (dy v) = inner (halo_result gf v) (back v) /\ inner (x v) (dx v) = inner (arg v) (halo_result gb v)).
    { intros v Hv. destruct (Sh v Hv) as [Sf Sb]. destruct (in_dec Z.eq_dec v (p_ranks P)) as [Hin|Hout].
      - destruct (gr_worker v Hin) as [idx Hw].
        destruct (gr_pad idx v Hw) as (_ & Sa & Pa). destruct (gr_kernel idx v Hw) as (_ & Sk & Ke).
        destruct (gr_setup idx v Hw) as (u & Eu & _ & _ & _ & Eh & _).
        destruct (Ke (halo_result gf) ltac:(congruence)) as (t & Et & St & It).
        destruct (Pa (halo_result gb v) ltac:(congruence)) as (d & Ed & Sd & Id).
        assert (Eg : upsample_gradient exact_types P a shape dy (halo_result gb) v = Ok d).
        { unfold upsample_gradient. rewrite Eu. cbn [rbind]. now rewrite Eh. }
        unfold y, dx. rewrite Et, Eg. repeat split; auto.
      - pose proof (gr_inactive v Hout) as E.
        assert (Ea : arg v = x v) by (unfold arg, upsample_argument, upsample_input; rewrite E; reflexivity).
        assert (Eb : back v = dy v) by (unfold back, upsample_back_argument, upsample_cotangent; rewrite E; reflexivity).
        assert (Ey : upsample_output exact_types weight P a shape x (halo_result gf) v = Ok (x v)) by (unfold upsample_output; rewrite E; reflexivity).
        assert (Eg : upsample_gradient exact_types P a shape dy (halo_result gb) v = Ok (dy v)) by (unfold upsample_gradient; rewrite E; reflexivity).
        pose proof (halo_inactive world P L H _ _ _ pre (HForward arg) arg init eager gf v (or_introl eq_refl) gr_given gr_planned Hf Hv Hout) as [F1 F2].
        pose proof (halo_inactive world P L H _ _ _ pre' (HBackward back) back init' eager' gb v (or_intror eq_refl) gr_given gr_planned Hb Hv Hout) as [B1 B2].
        unfold y, dx. rewrite Ey, Eg. pose proof (HO v Hv Hout) as Sxy. repeat split; auto.
        + rewrite Eb. unfold inner. rewrite F1, Ea. apply sumf_ext. intros i _. now rewrite F2, Ea.
        + rewrite Ea. unfold inner. apply sumf_ext. intros i _. now rewrite B2, Eb. }
    split; [intros v Hv; apply K; auto|].
    unfold world_inner in *. transitivity (sumf world (fun v => inner (halo_result gf v) (back v))).
    - apply sumf_ext. intros v Hv. apply K; auto.
    - rewrite Ad. apply sumf_ext. intros v Hv. symmetry. apply K; auto.
  Qed.
End Main.

Lemma C49_proof : C49_statement.
Proof.
  intros R weight world P a X Y x dy HN HI HP HL HD HX EY E0 E1 Hs Hb Hw HS HO shape arg back plan layer.
  assert (HU : usable P a X Y) by (split; auto; intros; rewrite asked_method; auto).
  split; [|split].
  - exact (gr_start weight world P a X Y x dy HI HU HS).
  - exact (given_safe R _ _ _ _ _ _ _ ltac:(eapply gr_given; eauto) ltac:(eapply gr_planned; eauto)).
  - intros pre pre' init init' eager eager' gf gb Hp Hp' Hf Hb'.
    exact (gr_main weight world P a X Y x dy HN HI HU HS HO pre pre' init init' eager eager' gf gb Hp Hp' Hf Hb').
Qed.

Theorem C49_upsample_adjoint : C49_statement.
Proof. exact C49_proof. Qed.

(** Linear interpolation of five elements to nine on three workers (as for C48);
    worker 3 is outside the partition.  [gx_run] is one possible execution of the
    halo layer. *)
Definition gx_dy (v : Z) : tensor Qring :=
  if v =? 3 then ex_x 3 else block (balanced [1; 1; 9] [1; 1; 3]) [0; 0; v] (@mkt Qring [1; 1; 9] (fun i => of_Z (nth 2 i 0 - 3))).
Definition gx_shape (v : Z) : list Z := tshape (ex_x v).
Definition gx_arg : Z -> tensor Qring := upsample_argument exact_types ex_P ex_a gx_shape ex_x.
Definition gx_back : Z -> tensor Qring :=
  upsample_back_argument (R := Qring) exact_types (fun w => w) ex_P ex_a gx_shape (fun v => tshape (gx_arg v)) gx_dy.
Definition gx_run (c : @call Qring) (v : Z) : tensor Qring :=
  last (h_hist (sync_rounds (history_rounds ex_P (fun v => tshape (gx_arg v))
    (fun v => e_recv (upsample_plan exact_types ex_P ex_a gx_shape v)) (fun v => e_send (upsample_plan exact_types ex_P ex_a gx_shape v)) [c])
    (fun _ => mkhst (tzeros []) (tzeros []) (tzeros []) []) v)) (tzeros []).
Definition gx_shows (r : result (tensor Qring)) : list Q := match r with Ok t => snd (show t) | Raise _ => [] end.

Example C49_example :
  let world := [0; 1; 2; 3] in
  NoDup world /\ (forall v, In v (p_ranks ex_P) -> In v world) /\ part_ok ex_P /\
  upsample_output_shape ex_a [1; 1; 5] = Ok [1; 1; 9] /\ sensible (asked ex_a) 5 9 /\
  (forall idx v, worker_at ex_P idx v -> tshape (ex_x v) = block_shape (balanced [1; 1; 5] (p_shape ex_P)) idx /\
                                         tshape (gx_dy v) = block_shape (balanced [1; 1; 9] (p_shape ex_P)) idx) /\
  (forall v, In v world -> ~ In v (p_ranks ex_P) -> tshape (gx_dy v) = tshape (ex_x v)) /\
  (* the inputs are 0, 1, 4, 9, 16; the gradients of the outputs are -3, ..., 5 *)
  map (fun v => gx_shows (upsample_output (R := Qring) exact_types (fun w => w) ex_P ex_a gx_shape ex_x (gx_run (HForward gx_arg)) v)) [0; 1; 2] =
    [[0; 1 # 3; 8 # 9]; [7 # 3; 4; 61 # 9]; [88 # 9; 41 # 3; 16]]%Q /\
  map (fun v => gx_shows (upsample_gradient exact_types ex_P ex_a gx_shape gx_dy (gx_run (HBackward gx_back)) v)) [0; 1; 2] =
    [[-40 # 9; -14 # 9]; [17 # 9; 46 # 9]; [8]]%Q.
Proof.
  cbv zeta. split; [repeat constructor; cbn; lia|]. split; [intros v Hv; cbn in *; tauto|].
  split; [split; [repeat constructor; cbn; lia|]; split; [discriminate|]; split; [repeat constructor|reflexivity]|].
  split; [reflexivity|]. split; [vm_compute; auto|].
  split.
  { intros idx v Hv. destruct (row_workers 3 _ _ Hv) as [-> Hr]. cbn in Hr. split; [reflexivity|].
    unfold gx_dy. destruct (Z.eqb_spec v 3); [lia|reflexivity]. }
  split; [intros v Hv Hn; cbn in Hv; destruct Hv as [<-|[<-|[<-|[<-|[]]]]]; cbn in Hn; intuition reflexivity|].
  split; vm_compute; reflexivity.
Qed.

Print Assumptions C49_upsample_adjoint.
