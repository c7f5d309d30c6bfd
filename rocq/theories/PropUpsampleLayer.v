(** The upsampling layer on a partitioned tensor: its output (C48). *)

From Coq Require Import QArith Qcanon.
From Verif Require Import Prelude SpecIndex SpecLayout SpecPartition SpecHalo ModelSlicing ModelDecomposition
  ModelPartition ProofSlicing ProofDecomposition ProofPartition PropDecomposition Ring Tensor ModelCollectives PropCollectives PropExchange
  ModelUtilities PropUtilities Blocks P2P Rounds ModelRepartition ProofTransfer PropRepartition ModelHaloMixin ProofHaloMixin
  ModelHaloExchange PropHaloExchange ModelFeatureLayer ProofFeatureLayer PropFeatureLayer ModelInterpolate ProofInterpolate
  PropInterpolate PropBatchNorm ModelScalars ModelUpsample SpecInterpolate ProofUpsample ProofUpsampleLayer PropUpsample
  ProofUpsampleOutput.
Local Open Scope Z_scope.

(** * C48 *)

(** Interpolation of [g], a function on points with coordinates below [xs], at
    point [o] of [ys] points: along one dimension after the other. *)
Fixpoint mixture {R : CRing} (m : method) (weight : Qc -> R) (xs ys o : list Z) (g : list Z -> R) : R :=
  match xs, ys, o with
  | nx :: xs', ny :: ys', y :: o' =>
      sumf (reads m nx ny y) (fun r => rmul (weight (snd r)) (mixture m weight xs' ys' o' (fun t => g (fst r :: t))))
  | _, _, _ => g []
  end.

(** [Y] is [G] after sequential upsampling. *)
Definition upsampled {R : CRing} (m : method) (weight : Qc -> R) (G Y : tensor R) : Prop :=
  exists b c xs ys, tshape G = b :: c :: xs /\ tshape Y = b :: c :: ys /\ length ys = length xs /\
    forall b' c' o, valid_index (tshape Y) (b' :: c' :: o) ->
      tat Y (b' :: c' :: o) = mixture m weight xs ys o (fun t => tat G (b' :: c' :: t)).

(** The elements that the outputs of a block are computed from belong to this
    block or to the adjacent ones. *)
Definition neighbours_only (P : part) (m : method) (xs ys : list Z) : Prop :=
  forall j i y r, (2 <= j < length xs)%nat ->
    let p := nth j (p_shape P) 0 in
    let from e k := zsum (firstn (Z.to_nat k) e) in      (* the first index of block [k] *)
    let ex := balanced1 (nth j xs 0) p in
    let ey := balanced1 (nth j ys 0) p in
    0 <= i < p -> from ey i <= y < from ey (i + 1) -> In r (reads m (nth j xs 0) (nth j ys 0) y) ->
    from ex (i - 1) <= fst r < from ex (i + 2).

Definition C48_statement (extra : part -> method -> list Z -> list Z -> Prop) : Prop :=
  forall (R : CRing) (weight : Qc -> R) (world : list Z) (P : part) (a : upsample_args exact_types)
    (G Y : tensor R) (x : Z -> tensor R),
    weight 1%Qc = rone ->
    NoDup world -> (forall v, In v (p_ranks P) -> In v world) -> part_ok P ->
    length (tshape G) = length (p_shape P) -> (3 <= length (tshape G) <= 5)%nat -> pos_shape (tshape G) ->
    upsample_output_shape a (tshape G) = Ok (tshape Y) ->
    (forall j, (2 <= j < length (tshape G))%nat -> sensible (asked a) (nth j (tshape G) 0) (nth j (tshape Y) 0)) ->
    (forall j, (j < length (tshape G))%nat -> nth j (p_shape P) 0 <= nth j (tshape Y) 0) ->   (* every worker has outputs *)
    (u_align a = None \/ nth 0 (p_shape P) 0 = 1 /\ nth 1 (p_shape P) 0 = 1) ->
    upsampled (asked a) weight G Y -> holds_blocks P (balanced (tshape G) (p_shape P)) G x ->
    extra P (asked a) (tshape G) (tshape Y) ->
    let shape v := tshape (x v) in
    let arg := upsample_argument exact_types P a shape x in
    let plan := upsample_plan exact_types P a shape in
    let layer := history_rounds P (fun v => tshape (arg v)) (fun v => e_recv (plan v)) (fun v => e_send (plan v)) in
    (* the layer can be set up and its input be padded on every worker... *)
    (forall v, In v world -> upsample_input exact_types P a shape x v = Ok (arg v)) /\
    (* ... its halo exchange is safe (C27)... *)
    halo_safe R world P (fun v => tshape (arg v)) (fun v => e_recv (plan v)) (fun v => e_send (plan v)) /\
    (* ... and the outputs are the blocks of the sequential output *)
    forall pre init eager g, same_calls P arg pre -> ends world (layer (pre ++ [HForward arg])) init eager g ->
      (forall idx v, worker_at P idx v ->
         exists t, upsample_output exact_types weight P a shape x (halo_result g) v = Ok t /\
                   teq t (block (balanced (tshape Y) (p_shape P)) idx Y)) /\
      (forall v, In v world -> ~ In v (p_ranks P) ->
         upsample_output exact_types weight P a shape x (halo_result g) v = Ok (x v)).

Section Mix.
  Context {R : CRing}.
  Add Ring R_mix : (rth R).
  Variable weight : Qc -> R.
  Hypothesis Hw : weight 1%Qc = rone.
  Variable mode : imode exact.

  Lemma pick_sum k o (F : Z -> R) :
    sumf (pick_of exact weight mode k o) (fun v => scaled (fst v) (F (snd v))) =
    sumf (kernel_reads mode k o) (fun r => rmul (weight (snd r)) (F (fst r))).
  Proof.
    unfold pick_of, kernel_reads. destruct mode as [|s c].
    - rewrite !sumf_cons, !sumf_nil. cbn [fst snd scaled]. rewrite Hw. ring.
    - destruct (compute_linear_idx_weight exact s c k o) as [[[i0 w0] i1] w1]. reflexivity.
  Qed.

  Lemma nested_mixture ks : forall q xs ys y offs (g : list Z -> R),
    length q = length ks -> length xs = length ks -> length ys = length ks -> length y = length ks -> length offs = length ks ->
    (forall d k0, (d < length ks)%nat -> kernel_reads mode (nth d ks k0) (nth d q 0) =
       map (fun r => (fst r - nth d offs 0, snd r)) (reads (method_of mode) (nth d xs 0) (nth d ys 0) (nth d y 0))) ->
    nested (pick_of exact weight mode) ks q (fun t => g (vadd offs t)) = mixture (method_of mode) weight xs ys y g.
  Proof.
    induction ks as [|k ks IH]; intros q xs ys y offs g Lq Lx Ly Lyy Lo HK;
      destruct q as [|q0 q], xs as [|nx xs], ys as [|ny ys], y as [|y0 y], offs as [|f0 offs]; try discriminate; [reflexivity|].
    cbn [nested mixture].
    transitivity (sumf (pick_of exact weight mode k q0) (fun v => scaled (fst v)
      (mixture (method_of mode) weight xs ys y (fun t => g ((f0 + snd v) :: t))))).
    - apply sumf_ext. intros v _. f_equal. apply (IH q xs ys y offs (fun t => g ((f0 + snd v) :: t))); cbn [length] in *; try lia.
      intros d k0 Hd. exact (HK (S d) k0 ltac:(cbn [length]; lia)).
    - pose proof (pick_sum k q0 (fun z => mixture (method_of mode) weight xs ys y (fun t => g ((f0 + z) :: t)))) as PS.
      cbv beta in PS. rewrite PS. pose proof (HK 0%nat k ltac:(cbn [length]; lia)) as H0. cbn [nth] in H0.
      rewrite H0, sumf_map. apply sumf_ext. intros r _. cbn [fst snd]. now replace (f0 + (fst r - f0)) with (fst r) by lia.
  Qed.
End Mix.

Section Main.
  Context {R : CRing}.
  Variable weight : Qc -> R.
  Variables (world : list Z) (P : part) (a : upsample_args exact_types) (G Y : tensor R) (x : Z -> tensor R).
  Hypothesis Hw1 : weight 1%Qc = rone.
  Hypothesis HN : NoDup world.
  Hypothesis HI : forall v, In v (p_ranks P) -> In v world.
  Let X := tshape G.
  Let Ys := tshape Y.
  Hypothesis HU : usable P a X Ys.
  Let Ps := p_shape P.
  Let L := balanced X Ps.
  Let H := up_halos P a X Ys.
  Hypothesis HB : holds_blocks P L G x.

  Let shape v := tshape (x v).
  Let arg := upsample_argument exact_types P a shape x.
  Let plan := upsample_plan exact_types P a shape.

  Lemma g_shapes idx v : worker_at P idx v -> shape v = block_shape L idx.
  Proof. intros Hv. destruct HB as [_ B]. destruct (B idx v Hv) as [E _]. exact E. Qed.

  Lemma g_setup idx v : worker_at P idx v -> exists u, upsample_setup exact_types P a shape v = Ok (Some u) /\
      v_info u = info P a X Ys idx /\ v_x_global u = X /\ v_y_global u = Ys /\
      v_y_start u = sub_start Ps Ys idx /\ v_y_stop u = sub_stop Ps Ys idx /\
      length (v_x_start u) = length X /\ length (v_x_stop u) = length X /\
      forall j, (j < length X)%nat -> nth j (v_x_start u) 0 = dim_first P a X Ys j (nth j idx 0) /\
                                      nth j (v_x_stop u) 0 = dim_last P a X Ys j (nth j idx 0).
  Proof.
    intros Hv. exact (setup_spec P a X Ys (us_part _ _ _ _ HU) (us_nonneg _ _ _ _ HU) (us_len _ _ _ _ HU) (us_out _ _ _ _ HU)
                        (us_Ynonneg _ _ _ _ HU) shape g_shapes idx v Hv).
  Qed.

  Lemma g_plan idx v : worker_at P idx v -> e_recv (plan v) = recv_plan H idx /\ e_send (plan v) = send_plan H idx.
  Proof.
    intros Hv. destruct (g_setup idx v Hv) as (u & Eu & Ei & _). unfold plan, upsample_plan. rewrite Eu, Ei. split.
    - exact (up_recv P a X Ys HU idx (proj1 Hv)).
    - exact (up_send P a X Ys HU idx (proj1 Hv)).
  Qed.

  Lemma g_arg idx v : worker_at P idx v ->
    upsample_input exact_types P a shape x v = Ok (arg v) /\ tshape (arg v) = padded_shape L H idx /\
    forall p, valid_index (block_shape L idx) p ->
      tat (arg v) (vadd (left_halo H idx) p) = tat G (vadd (block_lo L idx) p).
  Proof.
    intros Hv. destruct (g_setup idx v Hv) as (u & Eu & Ei & _). pose proof (proj1 Hv) as Hi.
    destruct HB as [_ B]. destruct (B idx v Hv) as [Ex Vx]. cbn [block tshape tat] in Ex, Vx.
    pose proof (up_recv P a X Ys HU idx Hi) as Er. pose proof (up_idx P a X Ys HU idx Hi) as El.
    pose proof (up_L P a X Ys HU) as LL. pose proof (up_H P a X Ys) as LH. fold Ps L in LL.
    assert (L1 : length (recv_plan H idx) = length X) by (unfold recv_plan; rewrite map2_length; unfold H; rewrite ?LH; lia).
    assert (L2 : length (tshape (x v)) = length X) by (rewrite Ex, block_shape_length; lia).
    destruct (pad_if_needed rzero (recv_plan H idx) (x v)) as (t & E1 & E2 & E3).
    - lia.
    - apply Forall_forall. intros p Hp. apply In_nth with (d := (0, 0)) in Hp as (j & Hj & <-). rewrite L1 in Hj.
      rewrite recv_plan_nth by (unfold H; rewrite LH; lia). unfold H. rewrite (up_at P a X Ys).
      + unfold up_halo. cbn [fst snd]. lia.
      + auto.
      + apply (us_valid_nth P a X Ys HU); auto.
    - assert (EI : upsample_input exact_types P a shape x v = Ok t).
      { unfold upsample_input. rewrite Eu. cbn [rbind]. unfold upsample_padded. rewrite Ei, Er. exact E1. }
      assert (EA : arg v = t) by (unfold arg, upsample_argument; now rewrite EI). rewrite EA. split; auto. split.
      + pose proof (up_padded_shape P a X Ys HU idx Hi) as Ep. fold Ps L H in Ep. rewrite E2, <- Ep.
        unfold exchanged_shape. fold Ps L. rewrite Er, Ex. fold H.
        assert (L3 : length (block_shape L idx) = length X) by (rewrite block_shape_length; lia).
        apply list_eq_nth with (d := 0); [rewrite !map2_length; lia|]. intros j Hj. rewrite map2_length in Hj by lia.
        rewrite map2_nth with (da := 0) (db := (0, 0)) by lia. rewrite map2_nth with (da := (0, 0)) (db := 0) by lia. lia.
      + intros p Hp. rewrite <- Ex in Hp. rewrite E3 by auto. now apply Vx.
  Qed.

  Lemma g_given : halo_given world P L H.
  Proof.
    split; [auto|]. split; [auto|]. split; [apply HU|].
    split; [apply balanced_ok; [exact (up_pos P a X Ys HU)|exact (us_nonneg _ _ _ _ HU)]|].
    split; [apply balanced_workers; [exact (up_pos P a X Ys HU)|exact (us_len _ _ _ _ HU)]|exact (up_halos_ok P a X Ys HU)].
  Qed.

  Lemma g_planned : planned P L H (fun v => tshape (arg v)) (fun v => e_recv (plan v)) (fun v => e_send (plan v)).
  Proof. intros idx v Hv. destruct (g_arg idx v Hv) as (_ & E & _). destruct (g_plan idx v Hv) as (E1 & E2). auto. Qed.

  Lemma g_inactive v : ~ In v (p_ranks P) -> upsample_setup exact_types P a shape v = Ok None.
  Proof. intros Hv. unfold upsample_setup. apply index_in_none in Hv. now rewrite Hv. Qed.

  Let rounds := history_rounds (R := R) P (fun v => tshape (arg v)) (fun v => e_recv (plan v)) (fun v => e_send (plan v)).
  Hypothesis Hnear : forall j, (j < length X)%nat -> near1 P a X Ys j.

  Lemma exchanged pre init eager g idx v :
    same_calls P arg pre -> ends world (rounds (pre ++ [HForward arg])) init eager g -> worker_at P idx v ->
    tshape (halo_result g v) = padded_shape L H idx /\
    forall q, valid_index (padded_shape L H idx) q -> tat (halo_result g v) q = tat G (global_point L H idx q).
  Proof.
    intros Hpre Hend Hv.
    destruct (C25_proof R world P L H (fun v => tshape (arg v)) (fun v => e_recv (plan v)) (fun v => e_send (plan v)) G pre arg
                init eager g g_given (up_halos_narrow P a X Ys HU Hnear) g_planned) as [A _]; auto.
    - apply Forall_app. split.
      + eapply Forall_impl; [|exact Hpre]. intros cl Hcl i' v' Hv'. pose proof (Hcl v' (worker_at_In P i' v' Hv')) as E.
        pose proof (proj1 (proj2 (g_arg i' v' Hv'))) as E'. cbv zeta. destruct cl; congruence.
      + constructor; [|constructor]. intros i' v' Hv'. apply (g_arg i' v' Hv').
    - intros i' v' p Hv' Hp. now apply (g_arg i' v' Hv').
    - destruct (A idx v Hv) as (A1 & A2 & _). split; auto. intros q Hq. apply A2. auto.
  Qed.

  Lemma kernel_ok (y : Z -> tensor R) idx v : worker_at P idx v -> upsampled (asked a) weight G Y ->
    tshape (y v) = padded_shape L H idx ->
    (forall q, valid_index (padded_shape L H idx) q -> tat (y v) q = tat G (global_point L H idx q)) ->
    exists t, upsample_output exact_types weight P a shape x y v = Ok t /\ teq t (block (balanced Ys Ps) idx Y).
  Proof.
    intros Hv HG Sy Vy. pose proof (proj1 Hv) as Hi. pose proof (up_idx P a X Ys HU idx Hi) as El.
    destruct (g_setup idx v Hv) as (u & Eu & E1 & E2 & E3 & E4 & E5 & Ls1 & Ls2 & En).
    pose proof (up_padded_shape P a X Ys HU idx Hi) as Ep. fold Ps L H in Ep.
    destruct (us_slice P a X Ys HU idx Hi) as [S1 S2].
    destruct (us_local P a X Ys HU idx Hi) as (nb & nc & xs & ys & M1 & M2 & M3 & M4 & M5 & M6).
    pose proof (us_local_y P a X Ys HU idx Hi) as My. fold Ps in My, M2.
    assert (Tn : tshape (upsample_needed u (y v)) = needed_shape P a X Ys idx).
    { unfold upsample_needed, read_slice. cbn [tshape]. rewrite Sy, E1, <- Ep, S1. exact S2. }
    pose proof (us_len _ _ _ _ HU) as LX. fold Ps in LX. pose proof (us_Ylen P a X Ys HU) as LY.
    assert (Lxs : length X = S (S (length xs))).
    { transitivity (length (needed_shape P a X Ys idx)); [symmetry; apply vec_length|]. now rewrite M1. }
    (* the values of the slice *)
    assert (Lrp : length (e_needed (info P a X Ys idx)) = length X) by (now apply info_needed_length).
    assert (Vn : forall i, valid_index (needed_shape P a X Ys idx) i -> tat (upsample_needed u (y v)) i = tat G (vadd (v_x_start u) i)).
    { intros i Hvi. pose proof (valid_index_length _ _ Hvi) as Li. unfold needed_shape in Li. rewrite vec_length in Li.
      unfold upsample_needed, read_slice. cbn [tat]. rewrite Sy, E1, <- Ep, S1.
      assert (K : forall j, (j < length X)%nat ->
        let s := nth j (e_needed (info P a X Ys idx)) (0, 0) in
        0 <= fst s + nth j i 0 < nth j (exchanged_shape P a X Ys idx) 0 /\
        nth j (block_lo L idx) 0 - fst (nth j (recv_plan H idx) (0, 0)) + (fst s + nth j i 0) = nth j (v_x_start u) 0 + nth j i 0).
      { intros j Hj. cbv zeta. rewrite (exchanged_nth P a X Ys HU idx j Hi Hj). rewrite (proj1 (En j Hj)).
        destruct (us_first_last P a X Ys HU j (nth j idx 0) Hj (us_valid_nth P a X Ys HU idx j Hi Hj)) as [F1 F2].
        destruct (slice_placed P a X Ys (us_part _ _ _ _ HU) (us_nonneg _ _ _ _ HU) LX (us_out _ _ _ _ HU) (us_Ynonneg _ _ _ _ HU) idx j Hi Hj F1 F2)
          as (K1 & K2 & K3 & K4 & K5 & K6 & K7).
        pose proof (up_recv P a X Ys HU idx Hi) as Er. fold H in Er. rewrite Er in *.
        assert (Lo : nth j (block_lo L idx) 0 = start1 (nth j Ps 0) (nth j idx 0) (nth j X 0)).
        { apply lo_nth; auto; [exact (up_pos P a X Ys HU)|lia]. }
        rewrite Lo. apply valid_index_nth in Hvi as [_ Bi]. unfold needed_shape in Bi. rewrite vec_length in Bi. specialize (Bi j Hj).
        rewrite vec_nth in Bi by auto. unfold Ps in *; lia. }
      rewrite Vy.
      - f_equal. unfold global_point, vadd, vsub.
        assert (LLo : length (block_lo L idx) = length X).
        { pose proof (up_L P a X Ys HU) as LL. fold Ps L in LL. rewrite block_lo_length; lia. }
        assert (LLh : length (left_halo H idx) = length X).
        { unfold left_halo, recv_plan, H. rewrite map_length, map2_length; rewrite ?up_H; lia. }
        apply list_eq_nth with (d := 0).
        + rewrite !map2_length; rewrite ?map2_length; lia.
        + intros j Hj0. assert (Hj : (j < length X)%nat) by (rewrite !map2_length in Hj0; rewrite ?map2_length; lia). clear Hj0.
          rewrite !map2_nth with (da := 0) (db := 0) by (rewrite ?map2_length; lia).
          rewrite map2_nth with (da := (0, 0)) (db := 0) by lia.
          unfold left_halo. change (nth j (map fst (recv_plan H idx)) 0) with (nth j (map fst (recv_plan H idx)) (fst (0, 0))).
          rewrite map_nth. apply (K j Hj).
      - rewrite <- Ep. apply valid_index_nth. rewrite map2_length by lia. rewrite (exchanged_length P a X Ys HU idx Hi).
        split; [lia|]. intros j Hj. rewrite map2_nth with (da := (0, 0)) (db := 0) by lia. apply (K j Hj). }
    (* the kernel *)
    unfold upsample_output. rewrite Eu. cbn [rbind].
    assert (HLS : local_shapes nb nc xs ys (v_x_start u) (v_x_stop u) (v_y_start u) (v_y_stop u)).
    { split; [auto|]. split; [auto|]. split; [auto|]. split; [auto|]. rewrite E4, E5, My, <- M1. split; [|exact M2].
      apply list_eq_nth with (d := 0); [rewrite map2_length; unfold needed_shape; rewrite ?vec_length; lia|].
      intros j Hj. rewrite map2_length in Hj by lia. rewrite Ls2 in Hj. rewrite map2_nth with (da := 0) (db := 0) by lia.
      destruct (En j Hj) as [-> ->]. unfold needed_shape. now rewrite vec_nth. }
    assert (Tn' : tshape (upsample_needed u (y v)) = nb :: nc :: xs) by (rewrite Tn; exact M1).
    change (f_kernel exact_types) with exact.
    destruct (forward_value exact weight (kernel_mode a) nb nc xs ys (v_x_start u) (v_x_stop u) (v_x_global u) (v_y_start u) (v_y_stop u)
                (v_y_global u) (upsample_needed u (y v)) HLS Tn') as (t & Et & St & Vt).
    exists t. split; [exact Et|]. split; [rewrite St; symmetry; exact M2|].
    intros bq Hq. rewrite St in Hq. pose proof (valid_index_length _ _ Hq) as Lq.
    destruct bq as [|b [|c q]]; try discriminate. rewrite (Vt b c q Hq). cbn [length] in Lq.
    apply valid_index_cons_inv in Hq as (b0 & q0 & Eq0 & Hb & Hq1). injection Eq0 as <- <-.
    apply valid_index_cons_inv in Hq1 as (c0 & q0 & Eq0 & Hc & Hq2). injection Eq0 as <- <-.
    set (dim := kernel_dim (nb :: nc :: xs) (v_x_start u) (v_x_global u) (nb :: nc :: ys) (v_y_start u) (v_y_global u)).
    set (ks := feature_dims (length (nb :: nc :: xs)) dim).
    assert (Lks : length ks = length xs) by (unfold ks, feature_dims; rewrite map_length, seq_length; cbn [length]; lia).
    assert (Hk : map n_in ks = xs) by (apply (kdims_in nb nc xs dim M3); intros d Hd; reflexivity).
    assert (Hp : Forall (fun k => 0 < n_in k) ks) by (apply (kdims_pos nb nc xs dim M3 M5); intros d Hd; reflexivity).
    destruct HG as (B & C & Xs & Ysr & EX & EYs & LYs & HV). fold X in EX. fold Ys in EYs, HV.
    set (ylo := block_lo (balanced Ys Ps) idx).
    assert (Lylo : length ylo = length X) by (unfold ylo; rewrite block_lo_length; unfold balanced; rewrite map2_length; lia).
    assert (Nylo : forall j, (j < length X)%nat -> nth j ylo 0 = start1 (nth j Ps 0) (nth j idx 0) (nth j Ys 0)).
    { intros j Hj. apply lo_nth; auto; [exact (up_pos P a X Ys HU)|lia|lia]. }
    assert (Nyb : forall j, (j < length X)%nat -> nth j (nb :: nc :: ys) 0 = subshape1 (nth j Ps 0) (nth j idx 0) (nth j Ys 0)).
    { intros j Hj. rewrite <- M2. apply bshape_nth; auto; [exact (up_pos P a X Ys HU)|lia|lia]. }
    cbn [block tat]. fold ylo. fold Ys Ps.
    assert (Hyl : exists l0 l1 los, ylo = l0 :: l1 :: los) by (destruct ylo as [|? [|? ?]]; cbn [length] in Lylo; try lia; eauto).
    destruct Hyl as (l0 & l1 & los & Eylo).
    assert (Hxl : exists f0 f1 offs, v_x_start u = f0 :: f1 :: offs)
      by (destruct (v_x_start u) as [|? [|? ?]]; cbn [length] in Ls1; try lia; eauto).
    destruct Hxl as (f0 & f1 & offs & Exl).
    assert (F0 : forall j, (j < 2)%nat -> nth j (v_x_start u) 0 = nth j ylo 0).
    { intros j Hj. rewrite (proj1 (En j ltac:(lia))), Nylo by lia.
      apply (us_other P a X Ys HU j (nth j idx 0) ltac:(lia) (us_valid_nth P a X Ys HU idx j Hi ltac:(lia)) Hj). }
    pose proof (F0 0%nat ltac:(lia)) as F00. pose proof (F0 1%nat ltac:(lia)) as F01.
    rewrite Exl, Eylo in F00, F01. cbn [nth] in F00, F01. subst f0 f1.
    rewrite Eylo. change (vadd (l0 :: l1 :: los) (b :: c :: q)) with ((l0 + b) :: (l1 + c) :: vadd los q).
    assert (Llos : length los = length xs) by (rewrite Eylo in Lylo; cbn [length] in Lylo; lia).
    assert (Loffs : length offs = length xs) by (rewrite Exl in Ls1; cbn [length] in Ls1; lia).
    assert (LXs : length Xs = length xs) by (pose proof Lxs as E; rewrite EX in E; cbn [length] in E; lia).
    assert (LYr : length Ysr = length xs) by lia.
    (* the point lies in Y *)
    assert (PY : forall j, (j < length X)%nat -> 0 <= nth j ylo 0 /\ nth j ylo 0 + nth j (nb :: nc :: ys) 0 <= nth j Ys 0).
    { intros j Hj. rewrite Nylo, Nyb by auto.
      pose proof (bounds Ps Ys idx j (us_Ynonneg _ _ _ _ HU) ltac:(lia) Hi ltac:(lia)) as BY.
      rewrite step in BY by (auto; lia). lia. }
    assert (VY : valid_index Ys ((l0 + b) :: (l1 + c) :: vadd los q)).
    { apply valid_index_nth. split; [cbn [length]; unfold vadd; rewrite map2_length; lia|]. intros j Hj. rewrite LY in Hj.
      pose proof (PY j Hj) as PJ. rewrite Eylo in PJ. destruct j as [|[|j]]; cbn [nth] in *; try lia.
      apply valid_index_nth in Hq2 as [_ Bq]. specialize (Bq j ltac:(lia)).
      unfold vadd. rewrite map2_nth with (da := 0) (db := 0) by lia. lia. }
    rewrite HV by exact VY.
    transitivity (nested (pick_of exact weight (kernel_mode a)) ks q (fun t => tat G ((l0 + b) :: (l1 + c) :: vadd offs t))).
    - apply nested_ext; auto using pick_inside; [lia|]. intros z Hz. rewrite Hk in Hz. rewrite Vn.
      + rewrite Exl. reflexivity.
      + rewrite M1. constructor; auto.
    - rewrite kernel_mode_exact. rewrite <- asked_method. change (f_python exact_types) with exact.
      apply (nested_mixture weight Hw1 (python_mode a) ks q Xs Ysr (vadd los q) offs (fun t => tat G ((l0 + b) :: (l1 + c) :: t)));
        try (unfold vadd; rewrite ?map2_length; lia).
      intros d k0 Hd. rewrite Lks in Hd.
      assert (Ek : nth d ks k0 = dim (S (S d))).
      { unfold ks, feature_dims. rewrite (nth_indep _ k0 (dim 0%nat)) by (rewrite map_length, seq_length; cbn [length]; lia).
        rewrite map_nth, seq_nth by (cbn [length]; lia). reflexivity. }
      rewrite Ek. assert (Hj : (S (S d) < length X)%nat) by lia. set (j := S (S d)) in *.
      destruct (En j Hj) as [Ea Eb].
      assert (Eoff : nth d offs 0 = dim_first P a X Ys j (nth j idx 0)) by (rewrite <- Ea, Exl; reflexivity).
      assert (ENx : nth d Xs 0 = nth j X 0) by (rewrite EX; reflexivity).
      assert (ENy : nth d Ysr 0 = nth j Ys 0) by (rewrite EYs; reflexivity).
      assert (Elo : nth d los 0 = start1 (nth j Ps 0) (nth j idx 0) (nth j Ys 0)) by (rewrite <- Nylo by auto; rewrite Eylo; reflexivity).
      apply valid_index_nth in Hq2 as [_ Bq]. specialize (Bq d ltac:(lia)).
      pose proof (Nyb j Hj) as Nj. change (nth j (nb :: nc :: ys) 0) with (nth d ys 0) in Nj. rewrite Nj in Bq.
      pose proof (us_valid_nth P a X Ys HU idx j Hi Hj) as Bi. fold Ps in Bi.
      assert (Hs : sensible (method_of (python_mode a : imode exact)) (nth j X 0) (nth j Ys 0)) by (apply (us_sensible _ _ _ _ HU); lia).
      unfold vadd. rewrite map2_nth with (da := 0) (db := 0) by lia. rewrite Eoff, ENx, ENy, Elo.
      apply (local_kernel P a X Ys j eq_refl Hs (us_pspos P a X Ys HU j Hj) (nth j idx 0) Bi
               (us_ne P a X Ys HU j (nth j idx 0) Hj Bi) (dim j) (nth d q 0)); unfold dim, kernel_dim; cbn [off_in n_in g_in g_out off_out].
      + exact Ea.
      + rewrite <- M1. unfold needed_shape. now rewrite vec_nth.
      + now rewrite E2.
      + now rewrite E3.
      + rewrite E4. apply sub_start_nth; auto; try exact (up_pos P a X Ys HU); try exact (us_Ynonneg _ _ _ _ HU); unfold Ps in *; lia.
      + fold Ps. rewrite start1_step by lia. lia.
  Qed.
End Main.

(** From the specification's condition to the one on the plan. *)
Lemma from_start1 n p k : 0 < p -> 0 <= k <= p -> zsum (firstn (Z.to_nat k) (balanced1 n p)) = start1 p k n.
Proof. intros Hp Hk. now apply balanced1_prefix. Qed.

Lemma near_of_neighbours P a X Y : usable P a X Y -> neighbours_only P (asked a) X Y ->
  forall j, (j < length X)%nat -> near1 P a X Y j.
Proof.
  intros HU HN j Hj i Hi.
  pose proof (us_pspos P a X Y HU j Hj) as Hp. pose proof (us_Xpos P a X Y HU j Hj) as Hx.
  pose proof (us_ne P a X Y HU j i Hj Hi) as NE.
  set (p := nth j (p_shape P) 0) in *. set (nx := nth j X 0) in *. set (ny := nth j Y 0) in *.
  destruct (Nat.lt_ge_cases j 2) as [Hj2|Hj2].
  - destruct (us_other P a X Y HU j i Hj Hi Hj2) as (E1 & E2 & E3). rewrite E1, E2, E3. fold p nx. split; intros Hb.
    + apply start1_mono; lia.
    + apply start1_mono; lia.
  - assert (Hm : sensible (method_of (python_mode a : imode exact)) nx ny) by (apply (us_sensible _ _ _ _ HU); lia).
    assert (Hf : is_feature j = true) by (unfold is_feature; apply Nat.leb_le; lia).
    pose proof (y_range P a X Y j Hm Hp i Hi) as [R1 R2]. fold p ny in R1, R2.
    pose proof (first_exact P a X Y j Hf Hm Hp i Hi NE) as EF. pose proof (last_exact P a X Y j Hf Hm Hp i Hi NE) as EL.
    fold p nx ny in EF, EL.
    assert (HN' : forall y r, start1 p i ny <= y < start1 p (i + 1) ny ->
      In r (reads (method_of (python_mode a : imode exact)) nx ny y) ->
      zsum (firstn (Z.to_nat (i - 1)) (balanced1 nx p)) <= fst r < zsum (firstn (Z.to_nat (i + 2)) (balanced1 nx p))).
    { intros y r Hy Hr. apply (HN j i y r); try lia; fold p nx ny.
      - rewrite !from_start1 by lia. exact Hy.
      - now rewrite <- asked_method. }
    split; intros Hb.
    + rewrite EF. specialize (fun r => HN' (start1 p i ny) r ltac:(lia)).
      rewrite <- (from_start1 nx p (i - 1)) by lia.
      change (zsum (firstn (Z.to_nat (i - 1)) (balanced1 nx p)) <= first_read (method_of (python_mode a : imode exact)) nx ny (start1 p i ny)).
      assert (K : forall r, fst r = first_read (method_of (python_mode a : imode exact)) nx ny (start1 p i ny) ->
        (In r (reads (method_of (python_mode a : imode exact)) nx ny (start1 p i ny)) -> zsum (firstn (Z.to_nat (i - 1)) (balanced1 nx p)) <= fst r)).
      { intros r _ Hr. apply (HN' r); auto. }
      rewrite (reads_eq _ nx ny Hm) in K.
      destruct (python_mode a) as [|s [|]]; cbn [method_of] in K |- *; cbv zeta in K; eapply (K (_, _) eq_refl); left; reflexivity.
    + rewrite EL. specialize (HN' (start1 p (i + 1) ny - 1)).
      rewrite (reads_eq _ nx ny Hm) in HN'.
      assert (Hy : start1 p i ny <= start1 p (i + 1) ny - 1 < start1 p (i + 1) ny) by lia.
      pose proof (first_read_bounds _ nx ny Hm (start1 p (i + 1) ny - 1) ltac:(lia)) as FB.
      pose proof (start1_mono p (i + 2) p nx Hp ltac:(lia) ltac:(lia)) as SM. rewrite start1_P in SM by lia.
      specialize (fun r => HN' r Hy). rewrite <- (from_start1 nx p (i + 2)) in * by lia.
      destruct (python_mode a) as [|s [|]]; cbn [method_of] in HN', FB |- *; cbv zeta in HN'.
      * pose proof (HN' _ (or_introl eq_refl)) as Q. cbn [fst] in Q. lia.
      * pose proof (HN' _ (or_intror (or_introl eq_refl))) as Q. cbn [fst] in Q. lia.
      * pose proof (HN' _ (or_intror (or_introl eq_refl))) as Q. cbn [fst] in Q. lia.
Qed.

Lemma C48_proof : C48_statement neighbours_only.
Proof.
  intros R weight world P a G Y x Hw HN HI HP HL HD HX EY Hs Hb Hw' HG HB Hx shape arg plan layer.
  assert (HU : usable P a (tshape G) (tshape Y)).
  { split; auto.
    - destruct HG as (b & c & xs & ys & -> & -> & _). auto.
    - intros j Hj. rewrite asked_method. auto. }
  pose proof (near_of_neighbours _ _ _ _ HU Hx) as NR.
  split; [|split].
  - intros v Hv. destruct (in_dec Z.eq_dec v (p_ranks P)) as [Hin|Hout].
    + destruct (worker_at_exists P v HP Hin) as [idx Hi]. apply (g_arg world P a G Y x HI HU HB idx v Hi).
    + assert (E : upsample_setup exact_types P a shape v = Ok None) by exact (g_inactive P a x v Hout).
      unfold arg, upsample_argument, upsample_input. rewrite E. reflexivity.
  - apply given_safe with (L := balanced (tshape G) (p_shape P)) (H := up_halos P a (tshape G) (tshape Y)).
    + apply (g_given world P a G Y HN HI HU).
    + apply (g_planned world P a G Y x HI HU HB).
  - intros pre init eager g Hpre Hend. split.
    + intros idx v Hv.
      destruct (exchanged world P a G Y x HN HI HU HB NR pre init eager g idx v Hpre Hend Hv) as [E1 E2].
      exact (kernel_ok weight world P a G Y x Hw HI HU HB NR (halo_result g) idx v Hv HG E1 E2).
    + intros v Hv Hout. assert (E : upsample_setup exact_types P a shape v = Ok None) by exact (g_inactive P a x v Hout).
      unfold upsample_output. rewrite E. reflexivity.
Qed.

Theorem C48_upsample_output_partial : C48_statement neighbours_only.
Proof. exact C48_proof. Qed.

(** The blocks of input and output have equal extents, and a scale factor was
    used only to compute the output's extent. *)
Definition divisible (P : part) (m : method) (xs ys : list Z) : Prop :=
  forall j, (2 <= j < length xs)%nat ->
    (nth j (p_shape P) 0 | nth j xs 0) /\ (nth j (p_shape P) 0 | nth j ys 0) /\
    match m with Centred (Some s) => nth j ys 0 = floor_of (s * of_Z (nth j xs 0)) | _ => True end.

Section Divisible.
  Variables (m : method) (p bx by_ : Z).
  Let nx := p * bx.
  Let ny := p * by_.
  Hypothesis Hm : sensible m nx ny.
  Hypothesis Hp : 0 < p.
  Hypothesis Hf : match m with Centred (Some s) => ny = floor_of (s * of_Z nx) | _ => True end.

  Lemma dv_pos : 0 < bx /\ 0 < by_.
  Proof. destruct Hm as (A & B & _). unfold nx, ny in *. nia. Qed.

  Lemma dv_scale s : m = Centred (Some s) ->
    ny * Z.pos (Qden (this s)) <= Qnum (this s) * nx < (ny + 1) * Z.pos (Qden (this s)) /\ 0 < Qnum (this s).
  Proof.
    intros E. destruct (scale_pos m nx ny Hm s E) as [S1 S2]. split; auto. split; [lia|].
    rewrite E in Hf. unfold floor_of in Hf. pose proof (Qround.Qlt_floor (this (s * of_Z nx))) as F. rewrite <- Hf in F.
    change of_Z with Qint in F. rewrite this_mult, this_int in F. unfold Qlt, Qmult, inject_Z in F. cbn [Qnum Qden] in F. nia.
  Qed.

  Lemma dv_low i y : 1 <= i < p -> i * by_ <= y -> denom m nx ny * ((i - 1) * bx) <= line_at m nx ny y.
  Proof.
    intros Hi Hy. pose proof dv_pos as [B1 B2]. pose proof dv_scale as S. pose proof (al_nonneg m nx ny Hm) as A.
    apply Z.le_trans with (line_at m nx ny (i * by_)); [|unfold line_at; nia].
    unfold line_at, rise, offset, denom in *. clear A Hf Hm. destruct m as [| |[s|]].
    - unfold nx, ny. nia.
    - unfold nx, ny.
      assert (E : (p * bx - 1) * (i * by_) + 0 - (p * by_ - 1) * ((i - 1) * bx) = p * bx * by_ - i * by_ + (i - 1) * bx) by ring.
      assert (p * by_ <= p * bx * by_) by nia. assert (i * by_ <= p * by_) by nia. assert (0 <= (i - 1) * bx) by nia. lia.
    - destruct (S s eq_refl) as [[S1 S2] S3]. set (A := Qnum (this s)) in *. set (B := Z.pos (Qden (this s))) in *.
      assert (HB : 0 < B) by (unfold B; lia). clearbody A B. unfold nx, ny in *. clear S.
      assert (K1 : (i - 1) * (A * (p * bx)) <= (i - 1) * ((p * by_ + 1) * B)) by (apply Z.mul_le_mono_nonneg_l; lia).
      assert (K2 : A * p <= A * (p * bx)) by (assert (A * p * 1 <= A * p * bx) by (apply Z.mul_le_mono_nonneg_l; nia); lia).
      assert (K3 : 0 <= B * (p * by_ + p - 1 - 2 * (i - 1))) by (apply Z.mul_nonneg_nonneg; nia).
      apply Z.mul_le_mono_pos_l with (p := p); auto.
      replace (p * (2 * A * ((i - 1) * bx))) with (2 * ((i - 1) * (A * (p * bx)))) by ring.
      replace (p * (2 * B * (i * by_) + (B - A))) with (2 * B * i * p * by_ + p * B - A * p) by ring.
      assert (E : 2 * B * i * p * by_ + p * B - (p * by_ + 1) * B - 2 * ((i - 1) * ((p * by_ + 1) * B)) = B * (p * by_ + p - 1 - 2 * (i - 1))) by ring.
      lia.
    - unfold nx, ny. assert (E : 2 * (p * bx) * (i * by_) + (p * bx - p * by_) - 2 * (p * by_) * ((i - 1) * bx) = p * (2 * bx * by_ + bx - by_)) by ring.
      assert (0 <= p * (2 * bx * by_ + bx - by_)) by (apply Z.mul_nonneg_nonneg; nia). lia.
  Qed.

  Lemma dv_high i y : 0 <= i -> i + 1 < p -> y < (i + 1) * by_ -> line_at m nx ny y < denom m nx ny * ((i + 2) * bx - 1).
  Proof.
    intros Hi Hi1 Hy. pose proof dv_pos as [B1 B2]. pose proof dv_scale as S. pose proof (al_nonneg m nx ny Hm) as A.
    apply Z.le_lt_trans with (line_at m nx ny ((i + 1) * by_ - 1)); [unfold line_at; nia|].
    unfold line_at, rise, offset, denom in *. clear A Hf Hm. destruct m as [| |[s|]].
    - unfold nx, ny.
      assert (E : p * by_ * ((i + 2) * bx - 1) - (p * bx * ((i + 1) * by_ - 1) + 0) = p * (bx * by_ - by_ + bx)) by ring.
      assert (0 < p * (bx * by_ - by_ + bx)) by (apply Z.mul_pos_pos; nia). lia.
    - unfold nx, ny.
      assert (E : (p * by_ - 1) * ((i + 2) * bx - 1) - ((p * bx - 1) * ((i + 1) * by_ - 1) + 0) =
                  p * by_ * (bx - 1) + (i + 1) * by_ + (p - i - 2) * bx) by ring.
      assert (0 <= p * by_ * (bx - 1)) by (apply Z.mul_nonneg_nonneg; nia).
      assert (0 < (i + 1) * by_) by nia. assert (0 <= (p - i - 2) * bx) by nia. lia.
    - destruct (S s eq_refl) as [[S1 S2] S3]. set (A := Qnum (this s)) in *. set (B := Z.pos (Qden (this s))) in *.
      assert (HB : 0 < B) by (unfold B; lia). clearbody A B. unfold nx, ny in *. clear S.
      assert (K : by_ * B <= A * bx).
      { apply Z.mul_le_mono_pos_l with (p := p); auto. replace (p * (by_ * B)) with (p * by_ * B) by ring. replace (p * (A * bx)) with (A * (p * bx)) by ring. lia. }
      assert (K' : (i + 1) * (by_ * B) <= (i + 1) * (A * bx)) by (apply Z.mul_le_mono_nonneg_l; lia).
      assert (A <= A * bx) by nia.
      replace (2 * B * ((i + 1) * by_ - 1) + (B - A)) with (2 * ((i + 1) * (by_ * B)) - B - A) by ring.
      replace (2 * A * ((i + 2) * bx - 1)) with (2 * ((i + 1) * (A * bx)) + 2 * (A * bx) - 2 * A) by ring. lia.
    - unfold nx, ny.
      assert (E : 2 * (p * by_) * ((i + 2) * bx - 1) - (2 * (p * bx) * ((i + 1) * by_ - 1) + (p * bx - p * by_)) =
                  p * (2 * bx * by_ - by_ + bx)) by ring.
      assert (0 < p * (2 * bx * by_ - by_ + bx)) by (apply Z.mul_pos_pos; nia). lia.
  Qed.
End Divisible.

Lemma divisible_start p b k : 0 < p -> 0 <= k -> start1 p k (p * b) = k * b.
Proof.
  intros Hp Hk. unfold start1. rewrite (Z.mul_comm p b), Z.div_mul, Z.mod_mul by lia. nia.
Qed.

Lemma divisible_neighbours P m xs ys : pos_shape (p_shape P) -> length xs = length (p_shape P) ->
  (forall j, (2 <= j < length xs)%nat -> sensible m (nth j xs 0) (nth j ys 0)) ->
  divisible P m xs ys -> neighbours_only P m xs ys.
Proof.
  intros HP HL Hs HD j i y r Hj p from ex ey Hi Hy Hr.
  specialize (Hs j Hj). destruct (HD j Hj) as ([bx Ex] & [by_ Ey] & Hf).
  pose proof (pos_nth _ j HP ltac:(lia)) as Hp. fold p in Ex, Ey, Hp.
  unfold from, ex, ey in *. rewrite Ex, Ey, (Z.mul_comm bx), (Z.mul_comm by_) in *.
  rewrite !from_start1, !divisible_start in Hy by lia.
  destruct (dv_pos m p bx by_ Hs Hp) as [B1 B2].
  pose proof (first_read_spec m _ _ Hs y) as [F1 F2]. pose proof (de_pos m _ _ Hs) as Dp.
  assert (Hyn : y < p * by_) by nia.
  pose proof (first_read_bounds m _ _ Hs y Hyn) as FB.
  set (fr := first_read m (p * bx) (p * by_) y) in *.
  assert (Rr : fr <= fst r <= Z.min (p * bx - 1) (fr + 1)).
  { rewrite (reads_eq m _ _ Hs) in Hr. fold fr in Hr. destruct m; cbv zeta in Hr; destruct Hr as [<-|Hr]; cbn [fst]; try lia; try contradiction;
      destruct Hr as [<-|[]]; cbn [fst]; lia. }
  split.
  - destruct (Z.eq_dec i 0) as [->|Hi0].
    + change (Z.to_nat (0 - 1)) with 0%nat. cbn [firstn zsum fold_right]. lia.
    + rewrite from_start1, divisible_start by lia.
      pose proof (dv_low m p bx by_ Hs Hp Hf i y ltac:(lia) ltac:(lia)) as Lo.
      assert ((i - 1) * bx < fr + 1); [|lia].
      apply Z.mul_lt_mono_pos_l with (p := denom m (p * bx) (p * by_)); auto. 
      assert (0 <= denom m (p * bx) (p * by_) * ((i - 1) * bx)) by (apply Z.mul_nonneg_nonneg; nia). lia.
  - destruct (Z.eq_dec (i + 1) p) as [Ei|Hi1].
    + rewrite firstn_all2 by (rewrite balanced1_length; lia).
      assert (E : zsum (balanced1 (p * bx) p) = p * bx).
      { rewrite <- (firstn_all (balanced1 (p * bx) p)), balanced1_length. rewrite from_start1, divisible_start by lia. reflexivity. }
      lia.
    + rewrite from_start1, divisible_start by lia.
      pose proof (dv_high m p bx by_ Hs Hp Hf i y ltac:(lia) ltac:(lia) ltac:(lia)) as Hi2.
      assert (fr < (i + 2) * bx - 1); [|lia].
      apply Z.mul_lt_mono_pos_l with (p := denom m (p * bx) (p * by_)); auto.
      assert (0 < denom m (p * bx) (p * by_) * ((i + 2) * bx - 1)) by (apply Z.mul_pos_pos; nia). lia.
Qed.

(** In particular where the extents are divisible by the numbers of workers. *)
Theorem C48_upsample_output_divisible : C48_statement divisible.
Proof.
  intros R weight world P a G Y x Hw HN HI HP HL HD HX EY Hs Hb Hw' HG HB Hx.
  refine (C48_proof R weight world P a G Y x Hw HN HI HP HL HD HX EY Hs Hb Hw' HG HB _).
  apply divisible_neighbours; auto. apply HP.
Qed.

(** Workers in a row that hold the blocks of a one-dimensional tensor. *)
Lemma row_workers n idx v : worker_at (mkpart 0 (map Z.of_nat (seq 0 n)) [1; 1; Z.of_nat n]) idx v ->
  idx = [0; 0; v] /\ 0 <= v < Z.of_nat n.
Proof.
  intros [Hi Hv]. cbn [p_shape p_ranks] in *.
  apply valid_index_cons_inv in Hi as (i0 & t & -> & H0 & Hi). apply valid_index_cons_inv in Hi as (i1 & t' & -> & H1 & Hi).
  apply valid_index_cons_inv in Hi as (i2 & t'' & -> & H2 & Hi). inversion Hi; subst.
  assert (i0 = 0) by lia. assert (i1 = 0) by lia. subst.
  assert (E : row_major [1; 1; Z.of_nat n] [0; 0; i2] = i2) by (cbn [row_major zprod fold_right]; lia).
  rewrite E in Hv. rewrite (map_nth_error Z.of_nat (Z.to_nat i2) (seq 0 n) (d := Z.to_nat i2)) in Hv.
  - injection Hv as <-. rewrite Z2Nat.id by lia. auto.
  - rewrite nth_error_nth' with (d := 0%nat) by (rewrite seq_length; lia). rewrite seq_nth by lia. reflexivity.
Qed.

(** Nine elements to fourteen on seven workers: output 6, the first one of worker
    3, is element 3; the worker holds element 5, its neighbour element 4. *)
Definition rf_P : part := mkpart 0 [0; 1; 2; 3; 4; 5; 6] [1; 1; 7].
Definition rf_a : upsample_args exact_types := mkupsample_args exact_types (Some [1; 1; 14]) None None.
Definition rf_G : tensor Zring := @mkt Zring [1; 1; 9] (fun i => 10 ^ nth 2 i 0).
Definition rf_Y : tensor Zring := @mkt Zring [1; 1; 14] (fun i =>
  match i with
  | b :: c :: o => mixture Constant (fun _ => 1 : car Zring) [9] [14] o (fun t => tat rf_G (b :: c :: t))
  | _ => 0
  end).
Definition rf_L : layout := balanced [1; 1; 9] [1; 1; 7].
Definition rf_x (v : Z) : tensor Zring := block rf_L [0; 0; v] rf_G.
Definition rf_shape (v : Z) : list Z := tshape (rf_x v).
Definition rf_arg := upsample_argument exact_types rf_P rf_a rf_shape rf_x.
Definition rf_plan := upsample_plan exact_types rf_P rf_a rf_shape.

Lemma rf_part : part_ok rf_P.
Proof. split; [repeat constructor; cbn; lia|]. split; [discriminate|]. split; [repeat constructor|reflexivity]. Qed.

Lemma rf_blocks : holds_blocks rf_P rf_L rf_G rf_x.
Proof. split; [reflexivity|]. intros idx v Hv. destruct (row_workers 7 _ _ Hv) as [-> _]. apply teq_refl. Qed.

Lemma rf_dim j : (2 <= j < 3)%nat -> j = 2%nat. Proof. lia. Qed.

Lemma rf_sensible j : (2 <= j < length (tshape rf_G))%nat -> sensible (asked rf_a) (nth j (tshape rf_G) 0) (nth j (tshape rf_Y) 0).
Proof. intros Hj. apply rf_dim in Hj as ->. vm_compute. auto. Qed.

Lemma rf_enough j : (j < length (tshape rf_G))%nat -> nth j (p_shape rf_P) 0 <= nth j (tshape rf_Y) 0.
Proof. destruct j as [|[|[|j]]]; cbn; lia. Qed.

Lemma rf_upsampled : upsampled (asked rf_a) (fun _ => 1 : car Zring) rf_G rf_Y.
Proof. exists 1, 1, [9], [14]. repeat split. Qed.

Lemma rf_usable : usable rf_P rf_a (tshape rf_G) (tshape rf_Y).
Proof.
  split; [exact rf_part|reflexivity|cbn; lia|repeat constructor|reflexivity|split; reflexivity|exact rf_sensible|exact rf_enough|now left].
Qed.

Theorem C48_all_parameters_refuted : ~ C48_statement (fun _ _ _ _ => True).
Proof.
  intros C. pose proof (C Zring (fun _ => 1) (p_ranks rf_P) rf_P rf_a rf_G rf_Y rf_x eq_refl ltac:(repeat constructor; cbn; lia)
    ltac:(auto) rf_part eq_refl ltac:(cbn; lia) ltac:(repeat constructor) eq_refl rf_sensible rf_enough (or_introl eq_refl)
    rf_upsampled rf_blocks I) as (_ & _ & K). clear C.
  pose proof (g_given (p_ranks rf_P) rf_P rf_a rf_G rf_Y ltac:(repeat constructor; cbn; lia) ltac:(auto) rf_usable) as Gi.
  pose proof (g_planned (p_ranks rf_P) rf_P rf_a rf_G rf_Y rf_x ltac:(auto) rf_usable rf_blocks) as Pl.
  destruct (async_ends _ _ _ _ (fun _ _ _ _ => true) (halo_async _ _ _ _ _ _ _ Gi Pl [HForward rf_arg]
    (fun _ => mkhst (mkt [] (fun _ => 0 : car Zring)) (mkt [] (fun _ => 0 : car Zring)) (mkt [] (fun _ => 0 : car Zring)) []))) as [g Hg].
  destruct (K [] _ _ g (Forall_nil _) Hg) as [K1 _]. clear K.
  destruct (K1 [0; 0; 3] 3) as (t & Et & Es & Ev); [split; [repeat constructor; lia|reflexivity]|].
  destruct (ends_result (p_ranks rf_P) rf_P (balanced (tshape rf_G) (p_shape rf_P)) (up_halos rf_P rf_a (tshape rf_G) (tshape rf_Y)) _ _ _ Gi Pl
    (map (forward_round rf_P (fun v => tshape (rf_arg v)) (fun v => e_recv (rf_plan v)) (fun v => e_send (rf_plan v))) (seq 0 3))
    rf_arg [] (HForward rf_arg) _ _ g 3 ltac:(simpl; auto 6) eq_refl Hg) as (S0 & Er & ES).
  revert Et. unfold upsample_output.
  match goal with |- context [upsample_setup ?T ?P ?a ?s ?v] =>
    let u := eval vm_compute in (upsample_setup T P a s v) in replace (upsample_setup T P a s v) with u by (vm_compute; reflexivity) end.
  cbn [rbind]. 
  match goal with |- context [upsample_needed ?u _] => set (U := u) end. intros Et.
  destruct Er as [Esh Ev']. subst S0.
  match type of Esh with _ = tshape ?T => set (S1 := T) in * end.
  assert (Sh : tshape (halo_result g 3) = [1; 1; 3]) by (rewrite Esh; vm_compute; reflexivity).
  assert (Tn : tshape (upsample_needed U (halo_result g 3)) = [1; 1; 2]).
  { unfold upsample_needed, read_slice. cbn [tshape]. rewrite Sh. vm_compute. reflexivity. }
  destruct (forward_value exact (fun _ => 1 : car Zring) (kernel_mode rf_a) 1 1 [2] [2] (v_x_start U) (v_x_stop U) (v_x_global U)
              (v_y_start U) (v_y_stop U) (v_y_global U) (upsample_needed U (halo_result g 3))) as (t' & Et' & _ & Vt).
  { repeat split; try (cbn; lia); repeat constructor. }
  { exact Tn. }
  assert (Q : t = t') by (pose proof (eq_trans (eq_sym Et) Et') as Q; now injection Q). subst t'.
  specialize (Ev [0; 0; 0]). rewrite Es in Ev.
  assert (V : valid_index (tshape (block (balanced (tshape rf_Y) (p_shape rf_P)) [0; 0; 3] rf_Y)) [0; 0; 0]).
  { vm_compute. repeat constructor; discriminate. }
  specialize (Ev V). rewrite (Vt 0 0 [0]) in Ev by (repeat constructor; lia).
  assert (X1 : tat (block (balanced (tshape rf_Y) (p_shape rf_P)) [0; 0; 3] rf_Y) [0; 0; 0] = 1000) by (vm_compute; reflexivity).
  rewrite X1 in Ev. clear X1 Et Et' Vt V Es K1 Hg Gi Pl.
  assert (X2 : tat (halo_result g 3) [0; 0; 0] = 0) by (rewrite Ev'; vm_compute; reflexivity).
  revert Ev. unfold upsample_needed, read_slice. cbn [tat]. rewrite Sh. 
  match goal with |- ?l = _ -> _ => let l' := eval cbv -[halo_result] in l in change l with l' end.
  cbn. change (tat (halo_result g 3) [0; 0; 0] = 0) in X2. revert X2.
  assert (E : forall z, z = 0 -> match z with 0 => 0 | _ => z end = 1000 -> False) by (intros z -> Hz; discriminate).
  exact (E _).
Qed.

(** Linear interpolation of five elements to nine on three workers. *)
Definition ex_P : part := mkpart 0 [0; 1; 2] [1; 1; 3].
Definition ex_a : upsample_args exact_types := mkupsample_args exact_types (Some [1; 1; 9]) None (Some false).
Definition ex_G : tensor Qring := @mkt Qring [1; 1; 5] (fun i => of_Z (nth 2 i 0 * nth 2 i 0)).
Definition ex_Y : tensor Qring := @mkt Qring [1; 1; 9] (fun i =>
  match i with
  | b :: c :: o => mixture (R := Qring) (Centred None) (fun w => w) [5] [9] o (fun t => tat ex_G (b :: c :: t))
  | _ => of_Z 0
  end).
Definition ex_x (v : Z) : tensor Qring := block (balanced [1; 1; 5] [1; 1; 3]) [0; 0; v] ex_G.

Lemma ex_neighbours : neighbours_only ex_P (asked ex_a) [1; 1; 5] [1; 1; 9].
Proof.
  intros j i y r Hj p from e_x e_y Hi Hy Hr. assert (j = 2%nat) by (cbn in Hj; lia). subst j.
  unfold p in *. cbn [ex_P p_shape nth] in Hi. unfold from, e_x, e_y in *. clear p from e_x e_y.
  assert (i = 0 \/ i = 1 \/ i = 2) as [-> |[-> | ->]] by lia;
  match type of Hy with ?a <= _ < ?b => let a' := eval vm_compute in a in let b' := eval vm_compute in b in
    change a with a' in Hy; change b with b' in Hy end;
  match goal with |- ?a <= _ < ?b => let a' := eval vm_compute in a in let b' := eval vm_compute in b in
    change a with a'; change b with b' end.
  - assert (y = 0 \/ y = 1 \/ y = 2) as [-> |[-> | ->]] by lia;
      apply (in_map fst) in Hr; set (z := fst r) in *; clearbody z; vm_compute in Hr; lia.
  - assert (y = 3 \/ y = 4 \/ y = 5) as [-> |[-> | ->]] by lia;
      apply (in_map fst) in Hr; set (z := fst r) in *; clearbody z; vm_compute in Hr; lia.
  - assert (y = 6 \/ y = 7 \/ y = 8) as [-> |[-> | ->]] by lia;
      apply (in_map fst) in Hr; set (z := fst r) in *; clearbody z; vm_compute in Hr; lia.
Qed.

Example C48_example :
  let world := [0; 1; 2; 3] in
  NoDup world /\ (forall v, In v (p_ranks ex_P) -> In v world) /\ part_ok ex_P /\
  upsample_output_shape ex_a (tshape ex_G) = Ok (tshape ex_Y) /\ sensible (asked ex_a) 5 9 /\
  upsampled (R := Qring) (asked ex_a) (fun w => w) ex_G ex_Y /\
  holds_blocks ex_P (balanced (tshape ex_G) (p_shape ex_P)) ex_G ex_x /\
  neighbours_only ex_P (asked ex_a) (tshape ex_G) (tshape ex_Y) /\
  show ex_Y = ([1; 1; 9], [0; 1 # 3; 8 # 9; 7 # 3; 4; 61 # 9; 88 # 9; 41 # 3; 16]%Q) /\
  (* worker 1 holds elements 2 and 3, and obtains element 1 *)
  map (fun v => tshape (upsample_argument exact_types ex_P ex_a (fun v => tshape (ex_x v)) ex_x v)) [0; 1; 2] =
    [[1; 1; 2]; [1; 1; 3]; [1; 1; 2]].
Proof.
  cbv zeta. split; [repeat constructor; cbn; lia|]. split; [intros v Hv; cbn in *; tauto|].
  split; [split; [repeat constructor; cbn; lia|]; split; [discriminate|]; split; [repeat constructor|reflexivity]|].
  split; [reflexivity|]. split; [vm_compute; auto|].
  split; [exists 1, 1, [5], [9]; repeat split|].
  split; [split; [reflexivity|]; intros idx v Hv; destruct (row_workers 3 _ _ Hv) as [-> _]; apply teq_refl|].
  split; [exact ex_neighbours|]. split; vm_compute; reflexivity.
Qed.

Print Assumptions C48_upsample_output_partial.
Print Assumptions C48_upsample_output_divisible.
Print Assumptions C48_all_parameters_refuted.
