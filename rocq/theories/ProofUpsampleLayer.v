(** Proofs about the upsampling layer: its setup. *)

From Coq Require Import QArith Qcanon.
From Verif Require Import Prelude SpecIndex SpecLayout SpecPartition SpecHalo ModelSlicing ModelDecomposition
  ModelPartition ProofSlicing ProofDecomposition ProofPartition PropDecomposition Ring Tensor ModelCollectives PropExchange
  ModelUtilities ModelRepartition ModelHaloMixin ProofHaloMixin ModelHaloExchange ModelFeatureLayer
  ModelInterpolate ModelScalars ModelUpsample SpecInterpolate ProofUpsample.
Local Open Scope Z_scope.

Lemma start_nth Ps X idx j : pos_shape Ps -> length X = length Ps -> valid_index Ps idx -> (j < length Ps)%nat ->
  nth j (compute_start_index Ps idx X) 0 = start1 (nth j Ps 0) (nth j idx 0) (nth j X 0).
Proof.
  intros HP. revert X idx j. induction HP as [|p Ps Hp HP IH]; intros X idx j HX Hi Hj; [cbn in Hj; lia|].
  apply valid_index_cons_inv in Hi as (i & t & -> & Hi & Ht). destruct X as [|z X]; [discriminate|].
  rewrite start_unfold. destruct j as [|j]; cbn [nth]; auto. apply IH; auto; cbn in *; lia.
Qed.

Lemma subshape_nth Ps X idx j : pos_shape Ps -> length X = length Ps -> valid_index Ps idx -> (j < length Ps)%nat ->
  nth j (compute_subshape Ps idx X) 0 = subshape1 (nth j Ps 0) (nth j idx 0) (nth j X 0).
Proof.
  intros HP. revert X idx j. induction HP as [|p Ps Hp HP IH]; intros X idx j HX Hi Hj; [cbn in Hj; lia|].
  apply valid_index_cons_inv in Hi as (i & t & -> & Hi & Ht). destruct X as [|z X]; [discriminate|].
  rewrite subshape_unfold. destruct j as [|j]; cbn [nth]; auto. apply IH; auto; cbn in *; lia.
Qed.

Lemma pos_nth Ps j : pos_shape Ps -> (j < length Ps)%nat -> 0 < nth j Ps 0.
Proof. intros HP Hj. unfold pos_shape in HP. rewrite Forall_nth in HP. now apply HP. Qed.

Lemma index_nth Ps idx j : valid_index Ps idx -> (j < length Ps)%nat -> 0 <= nth j idx 0 < nth j Ps 0.
Proof. intros Hi Hj. apply valid_index_nth in Hi as [_ H]. now apply H. Qed.

Section Blocks.
  Variables (Ps X idx : list Z) (j : nat).
  Hypothesis HP : pos_shape Ps.
  Hypothesis HX : nonneg_shape X.
  Hypothesis HL : length X = length Ps.
  Hypothesis Hi : valid_index Ps idx.
  Hypothesis Hj : (j < length Ps)%nat.

  Let p := nth j Ps 0.
  Let i := nth j idx 0.
  Let n := nth j X 0.

  Lemma b_i : 0 <= i < p. Proof. now apply index_nth. Qed.
  Lemma b_n : 0 <= n. Proof. unfold nonneg_shape in HX. rewrite Forall_nth in HX. apply HX. lia. Qed.

  Lemma sub_start_nth : nth j (sub_start Ps X idx) 0 = start1 p i n.
  Proof.
    unfold sub_start. destruct (proj1 C03_proof Ps X idx HP HX HL Hi) as (_ & -> & _). now apply start_nth.
  Qed.
  Lemma sub_stop_nth : nth j (sub_stop Ps X idx) 0 = start1 p (i + 1) n.
  Proof.
    unfold sub_stop. destruct (proj1 C03_proof Ps X idx HP HX HL Hi) as (_ & _ & ->).
    rewrite <- balanced_block_hi by auto. pose proof (valid_index_length _ _ Hi) as El.
    rewrite block_hi_lo by (unfold balanced; rewrite map2_length; lia).
    unfold vadd. rewrite map2_nth with (da := 0) (db := 0)
      by (rewrite ?block_lo_length, ?block_shape_length; unfold balanced; rewrite map2_length; lia).
    rewrite balanced_block_lo, balanced_block_shape, start_nth, subshape_nth by auto.
    pose proof b_i. fold p i n. rewrite start1_step; lia.
  Qed.
  Lemma sub_shape_nth : nth j (compute_subtensor_shapes_balanced X Ps idx) 0 = subshape1 p i n.
  Proof. rewrite balanced_shapes_spec by auto. now apply subshape_nth. Qed.
  Lemma lo_nth : nth j (block_lo (balanced X Ps) idx) 0 = start1 p i n.
  Proof. rewrite balanced_block_lo by auto. now apply start_nth. Qed.
  Lemma bshape_nth : nth j (block_shape (balanced X Ps) idx) 0 = subshape1 p i n.
  Proof. rewrite balanced_block_shape by auto. now apply subshape_nth. Qed.
  Lemma step : start1 p (i + 1) n = start1 p i n + subshape1 p i n.
  Proof. pose proof b_i. rewrite start1_step; lia. Qed.
  Lemma bounds : 0 <= start1 p i n <= start1 p (i + 1) n /\ start1 p (i + 1) n <= n.
  Proof.
    pose proof b_i as B. pose proof b_n as N.
    pose proof (start1_mono p i (i + 1) n ltac:(lia) N ltac:(lia)).
    pose proof (start1_mono p (i + 1) p n ltac:(lia) N ltac:(lia)).
    pose proof (start1_mono p 0 i n ltac:(lia) N ltac:(lia)).
    rewrite start1_P in * by lia. rewrite start1_0 in * by lia. lia.
  Qed.
End Blocks.

(** * The setup, in any arithmetic *)

Section Setup.
  Context {T : float_types}.
  Variables (P : part) (a : upsample_args T) (X Y : list Z).
  Let Ps := p_shape P.
  Let mode := python_mode a.
  Let A := f_python T.
  Hypothesis HP : part_ok P.
  Hypothesis HX : nonneg_shape X.
  Hypothesis HLX : length X = length Ps.
  Hypothesis EY : upsample_output_shape a X = Ok Y.
  Hypothesis HY : nonneg_shape Y.

  Lemma s_pos : pos_shape Ps. Proof. apply HP. Qed.

  Lemma out_length : length Y = length X.
  Proof using EY.
    clear HY. revert EY. unfold upsample_output_shape. destruct (u_size a) as [size|].
    - destruct (Nat.eqb_spec (length size) (length X)) as [E|]; [|discriminate]. intros E'. injection E' as <-. exact E.
    - destruct (u_scale a); [|discriminate]. intros E. injection E as <-. apply vec_length.
  Qed.

  Definition info (idx : list Z) := interpolate_exchange_info A mode Ps X Y idx.

  (** The first and the last (exclusive) element a worker with coordinate [i] needs in dimension [j]. *)
  Definition dim_first (j : nat) (i : Z) : Z :=
    needed_start A mode (is_feature j) (nth j X 0) (nth j Y 0) (start1 (nth j Ps 0) i (nth j Y 0)).
  Definition dim_last (j : nat) (i : Z) : Z :=
    needed_stop A mode (is_feature j) (nth j X 0) (nth j Y 0) (start1 (nth j Ps 0) (i + 1) (nth j Y 0) - 1).
  Definition dim_halo (j : nat) (i : Z) : Z * Z :=
    (start1 (nth j Ps 0) i (nth j X 0) - dim_first j i, dim_last j i - start1 (nth j Ps 0) (i + 1) (nth j X 0)).

  Lemma halo_signed idx j : valid_index Ps idx -> (j < length X)%nat ->
    nth j (interpolate_halo_shape A mode Ps X Y false idx) (0, 0) = dim_halo j (nth j idx 0).
  Proof.
    intros Hi Hj. pose proof out_length as EL. pose proof s_pos as Hp.
    unfold interpolate_halo_shape. rewrite vec_nth by auto.
    rewrite !sub_start_nth, !sub_stop_nth by (auto; lia). cbv zeta. unfold dim_halo, dim_first, dim_last.
    f_equal; [unfold needed_start|unfold needed_stop]; lia.
  Qed.

  Lemma halo_clipped idx j : valid_index Ps idx -> (j < length X)%nat ->
    nth j (interpolate_halo_shape A mode Ps X Y true idx) (0, 0) =
    (Z.max (fst (dim_halo j (nth j idx 0))) 0, Z.max (snd (dim_halo j (nth j idx 0))) 0).
  Proof.
    intros Hi Hj. rewrite <- halo_signed by auto. unfold interpolate_halo_shape. rewrite !vec_nth by auto. reflexivity.
  Qed.

  Lemma info_halo idx j : valid_index Ps idx -> (j < length X)%nat ->
    nth j (e_halo (info idx)) (0, 0) =
    (Z.max (fst (dim_halo j (nth j idx 0))) 0, Z.max (snd (dim_halo j (nth j idx 0))) 0).
  Proof. apply halo_clipped. Qed.

  Lemma info_needed idx j : valid_index Ps idx -> (j < length X)%nat ->
    nth j (e_needed (info idx)) (0, 0) =
    (- Z.min 0 (fst (dim_halo j (nth j idx 0))),
     subshape1 (nth j Ps 0) (nth j idx 0) (nth j X 0) + Z.max 0 (fst (dim_halo j (nth j idx 0))) + snd (dim_halo j (nth j idx 0))).
  Proof.
    intros Hi Hj. unfold info, interpolate_exchange_info. cbn [e_needed]. unfold interpolate_needed_ranges.
    pose proof s_pos as Hp. pose proof (valid_index_length _ _ Hi) as El.
    rewrite map2_nth with (da := 0) (db := (0, 0)).
    - rewrite halo_signed, sub_shape_nth by (auto; lia). reflexivity.
    - rewrite balanced_shapes_length by lia. rewrite <- HLX. lia.
    - unfold interpolate_halo_shape. rewrite ?vec_length, ?balanced_shapes_length by lia. lia.
  Qed.

  Lemma info_needed_length idx : valid_index Ps idx -> length (e_needed (info idx)) = length X.
  Proof.
    intros Hi. unfold info, interpolate_exchange_info. cbn [e_needed]. unfold interpolate_needed_ranges.
    pose proof (valid_index_length _ _ Hi) as El.
    rewrite map2_length; [rewrite balanced_shapes_length; lia|].
    rewrite balanced_shapes_length by lia. unfold interpolate_halo_shape. rewrite vec_length. lia.
  Qed.

  (** The slice that is cut from a tensor with halos, if something is needed. *)
  Lemma slice_placed idx j : valid_index Ps idx -> (j < length X)%nat ->
    let st := dim_first j (nth j idx 0) in
    let sp := dim_last j (nth j idx 0) in
    let h := nth j (e_halo (info idx)) (0, 0) in
    let s := nth j (e_needed (info idx)) (0, 0) in
    let e := fst h + subshape1 (nth j Ps 0) (nth j idx 0) (nth j X 0) + snd h in
    let base := start1 (nth j Ps 0) (nth j idx 0) (nth j X 0) - fst h in
    0 <= st < sp -> sp <= nth j X 0 ->
    py_range e s = s /\ 0 <= fst s < snd s /\ snd s <= e /\ 0 <= base /\ base + e <= nth j X 0 /\
    base + fst s = st /\ base + snd s = sp.
  Proof.
    intros Hi Hj. cbv zeta. rewrite info_halo, info_needed by auto. unfold dim_halo. cbn [fst snd].
    assert (Hjp : (j < length Ps)%nat) by lia.
    pose proof (bounds Ps X idx j HX HLX Hi Hjp) as BX. pose proof (step Ps X idx j HLX Hi Hjp) as SX.
    set (p := nth j Ps 0) in *. set (i := nth j idx 0) in *. set (nx := nth j X 0) in *.
    set (st := dim_first j i) in *. set (sp := dim_last j i) in *.
    set (xl := start1 p i nx) in *. set (xh := start1 p (i + 1) nx) in *. set (nl := subshape1 p i nx) in *.
    set (e := Z.max (xl - st) 0 + nl + Z.max (sp - xh) 0). intros F L.
    split; [|unfold e; repeat split; lia].
    unfold py_range, py_bound. cbn [fst snd].
    destruct (Z.ltb_spec (- Z.min 0 (xl - st)) 0); [lia|]. destruct (Z.ltb_spec (nl + Z.max 0 (xl - st) + (sp - xh)) 0); [lia|].
    unfold e. f_equal; lia.
  Qed.

  Variable shape : Z -> list Z.
  Hypothesis HS : forall idx v, worker_at P idx v -> shape v = block_shape (balanced X Ps) idx.

  Lemma setup_spec idx v : worker_at P idx v ->
    exists u, upsample_setup T P a shape v = Ok (Some u) /\
      v_info u = info idx /\ v_x_global u = X /\ v_y_global u = Y /\
      v_y_start u = sub_start Ps Y idx /\ v_y_stop u = sub_stop Ps Y idx /\
      length (v_x_start u) = length X /\ length (v_x_stop u) = length X /\
      forall j, (j < length X)%nat -> nth j (v_x_start u) 0 = dim_first j (nth j idx 0) /\
                                      nth j (v_x_stop u) 0 = dim_last j (nth j idx 0).
  Proof.
    intros Hv. pose proof out_length as EL. pose proof s_pos as Hp.
    unfold upsample_setup. pose proof (proj2 (index_in_spec P v idx HP) Hv) as ->.
    rewrite (assemble_layout P shape (balanced X Ps) v idx); auto.
    2:{ apply balanced_ok; auto. }
    2:{ apply balanced_workers; auto. }
    rewrite balanced_shape by auto. cbn [rbind]. rewrite EY. cbn [rbind].
    eexists. split; [reflexivity|]. cbn [v_info v_x_global v_y_global v_y_start v_y_stop v_x_start v_x_stop].
    repeat (split; [reflexivity|]). rewrite !vec_length. repeat (split; [reflexivity|]).
    intros j Hj. rewrite !vec_nth by auto. fold Ps. pose proof (proj1 Hv) as Hi. fold Ps in Hi.
    rewrite sub_start_nth, sub_stop_nth by (auto; lia). rewrite Z.sub_0_r. auto.
  Qed.
End Setup.

(** * In exact arithmetic *)

(** Exact arithmetic everywhere. *)
Definition exact_types : float_types := mkfloat_types exact exact (fun s => s).

Lemma kernel_mode_exact (a : upsample_args exact_types) : kernel_mode a = python_mode a.
Proof. unfold kernel_mode, python_mode. destruct (u_align a); auto. now destruct (u_scale a). Qed.

Section ExactDim.
  Variables (P : part) (a : upsample_args exact_types) (X Y : list Z) (j : nat).
  Let Ps := p_shape P.
  Let mode : imode exact := python_mode a.
  Let m := method_of mode.
  Let nx := nth j X 0.
  Let ny := nth j Y 0.
  Let p := nth j Ps 0.
  Hypothesis Hf : is_feature j = true.
  Hypothesis Hm : sensible m nx ny.
  Hypothesis Hp : 0 < p.

  Let extra := match mode with Nearest => 1 | Linear _ _ => 2 end.

  Section Coordinate.
    Variable i : Z.
    Hypothesis Hi : 0 <= i < p.
    Hypothesis Hne : start1 p i ny < start1 p (i + 1) ny.      (* the block of the output is not empty *)

    Lemma y_range : 0 <= start1 p i ny /\ start1 p (i + 1) ny <= ny.
    Proof.
      destruct Hm as (_ & N & _).
      pose proof (start1_mono p 0 i ny Hp ltac:(lia) ltac:(lia)) as A1. pose proof (start1_mono p (i + 1) p ny Hp ltac:(lia) ltac:(lia)) as A2.
      rewrite start1_0 in A1 by lia. rewrite start1_P in A2 by lia. lia.
    Qed.

    Lemma first_exact : dim_first P a X Y j i = first_read m nx ny (start1 p i ny).
    Proof.
      unfold dim_first, needed_start. rewrite Hf. fold Ps nx ny p. pose proof y_range.
      change (f_python exact_types) with exact. rewrite source_index_exact by (auto; lia).
      pose proof (first_read_bounds m nx ny Hm (start1 p i ny) ltac:(lia)). fold mode m. lia.
    Qed.

    Lemma last_exact : dim_last P a X Y j i = Z.min nx (first_read m nx ny (start1 p (i + 1) ny - 1) + extra).
    Proof.
      unfold dim_last, needed_stop. rewrite Hf. fold Ps nx ny p. pose proof y_range.
      change (f_python exact_types) with exact. rewrite source_index_exact by (auto; lia).
      fold mode m. unfold extra. destruct mode; lia.
    Qed.

    Lemma first_last : 0 <= dim_first P a X Y j i < dim_last P a X Y j i /\ dim_last P a X Y j i <= nx.
    Proof.
      rewrite first_exact, last_exact. pose proof y_range as YR.
      pose proof (first_read_bounds m nx ny Hm (start1 p i ny) ltac:(lia)).
      pose proof (first_read_mono m nx ny Hm (start1 p i ny) (start1 p (i + 1) ny - 1) ltac:(lia)).
      assert (1 <= extra) by (unfold extra; destruct mode; lia). lia.
    Qed.

    (** What the outputs of the block are computed from. *)
    Lemma covers y r : start1 p i ny <= y < start1 p (i + 1) ny -> In r (reads m nx ny y) ->
      dim_first P a X Y j i <= fst r < dim_last P a X Y j i.
    Proof.
      intros Hy Hr. rewrite first_exact, last_exact. pose proof y_range as YR.
      pose proof (first_read_bounds m nx ny Hm y ltac:(lia)).
      pose proof (first_read_mono m nx ny Hm (start1 p i ny) y ltac:(lia)).
      pose proof (first_read_mono m nx ny Hm y (start1 p (i + 1) ny - 1) ltac:(lia)).
      rewrite (reads_eq m nx ny Hm) in Hr. unfold extra. unfold m in *.
      destruct mode as [|s [|]]; cbn [method_of] in *; destruct Hr as [<-|Hr]; cbn [fst]; try lia; try contradiction;
        destruct Hr as [<-|[]]; cbn [fst]; lia.
    Qed.

    Lemma local_kernel k o : off_in k = dim_first P a X Y j i -> n_in k = dim_last P a X Y j i - dim_first P a X Y j i ->
      g_in k = nx -> g_out k = ny -> off_out k = start1 p i ny -> 0 <= o < start1 p (i + 1) ny - start1 p i ny ->
      kernel_reads mode k o = map (fun r => (fst r - dim_first P a X Y j i, snd r)) (reads m nx ny (start1 p i ny + o)).
    Proof.
      intros E1 E2 E3 E4 E5 Ho. pose proof y_range as YR. pose proof first_last as FL.
      rewrite <- E1, <- E5. unfold m. apply kernel_reads_exact; auto; rewrite E5.
      - lia.
      - rewrite E1, first_exact. pose proof (first_read_mono m nx ny Hm (start1 p i ny) (start1 p i ny + o) ltac:(lia)).
        pose proof (first_read_bounds m nx ny Hm (start1 p i ny) ltac:(lia)). unfold m in *. lia.
      - rewrite E1, E2, last_exact. pose proof (first_read_mono m nx ny Hm (start1 p i ny + o) (start1 p (i + 1) ny - 1) ltac:(lia)).
        pose proof (first_read_bounds m nx ny Hm (start1 p i ny + o) ltac:(lia)). unfold m in *.
        assert (1 <= extra) by (unfold extra; destruct mode; lia). lia.
      - rewrite E1, E2. pose proof (first_read_mono m nx ny Hm (start1 p i ny + o) (start1 p (i + 1) ny - 1) ltac:(lia)).
        rewrite last_exact. unfold extra, m in *. destruct mode; auto. lia.
    Qed.
  End Coordinate.
End ExactDim.

(** Batch and channels: a worker needs what it has, and one more with linear
    interpolation. *)
Section ExactOther.
  Variables (P : part) (a : upsample_args exact_types) (X Y : list Z) (j : nat).
  Let Ps := p_shape P.
  Let mode : imode exact := python_mode a.
  Let p := nth j Ps 0.
  Hypothesis Hf : is_feature j = false.
  Hypothesis HXY : nth j Y 0 = nth j X 0.
  Variable i : Z.
  Hypothesis Hi : 0 <= i < p.
  Hypothesis Hn : 0 <= nth j X 0.

  Lemma source_other nx ny y : 0 <= y -> source_index exact mode false nx ny y = y.
  Proof.
    intros Hy. unfold source_index. destruct mode as [|s [|]]; cbn [exact s_int s_div s_mul s_sub s_half_more s_floor s_negative].
    1,2: rewrite Qint_1, Qcmult_1_l; unfold Qcfloor, Qint; rewrite (Qround.Qfloor_comp _ _ (this_Q2Qc _)); apply Qround.Qfloor_Z.
    rewrite Qint_1, Qint_0, Qcmult_1_l.
    replace (Qint y + Qhalf - (0 + Qhalf))%Qc with (Qint y) by ring.
    assert (N : Qcnegative (Qint y) = false).
    { unfold Qcnegative. apply negb_false_iff. apply Qle_bool_iff. rewrite this_int. change 0%Q with (inject_Z 0). rewrite <- Zle_Qle. exact Hy. }
    rewrite N. unfold Qcfloor, Qint. rewrite (Qround.Qfloor_comp _ _ (this_Q2Qc _)). apply Qround.Qfloor_Z.
  Qed.

  Hypothesis Hne : start1 p i (nth j X 0) < start1 p (i + 1) (nth j X 0).

  Lemma first_other : dim_first P a X Y j i = start1 p i (nth j X 0).
  Proof.
    unfold dim_first, needed_start. rewrite Hf, HXY. fold Ps p. change (f_python exact_types) with exact. fold mode.
    pose proof (start1_mono p 0 i (nth j X 0) ltac:(lia) Hn ltac:(lia)) as A1. rewrite start1_0 in A1 by lia.
    rewrite source_other by lia. lia.
  Qed.

  Lemma last_other : dim_last P a X Y j i =
    match u_align a with None => start1 p (i + 1) (nth j X 0) | Some _ => Z.min (nth j X 0) (start1 p (i + 1) (nth j X 0) + 1) end.
  Proof.
    unfold dim_last, needed_stop. rewrite Hf, HXY. fold Ps p. change (f_python exact_types) with exact. fold mode.
    pose proof (start1_mono p 0 i (nth j X 0) ltac:(lia) Hn ltac:(lia)) as A1. rewrite start1_0 in A1 by lia.
    pose proof (start1_mono p (i + 1) p (nth j X 0) ltac:(lia) Hn ltac:(lia)) as A2. rewrite start1_P in A2 by lia.
    rewrite source_other by lia. unfold mode, python_mode. destruct (u_align a); lia.
  Qed.
End ExactOther.

(** * The whole layer in exact arithmetic *)

(** Every worker has a part of the output; linear interpolation is used with
    batch and channels in one piece. *)
Record usable (P : part) (a : upsample_args exact_types) (X Y : list Z) : Prop := mkusable {
  us_part : part_ok P;
  us_len : length X = length (p_shape P);
  us_dims : (3 <= length X <= 5)%nat;
  us_pos : pos_shape X;
  us_out : upsample_output_shape a X = Ok Y;
  us_same : nth 0 Y 0 = nth 0 X 0 /\ nth 1 Y 0 = nth 1 X 0;
  us_sensible : forall j, (2 <= j < length X)%nat -> sensible (method_of (python_mode a : imode exact)) (nth j X 0) (nth j Y 0);
  us_blocks : forall j, (j < length X)%nat -> nth j (p_shape P) 0 <= nth j Y 0;
  us_whole : u_align a = None \/ nth 0 (p_shape P) 0 = 1 /\ nth 1 (p_shape P) 0 = 1
}.

Lemma subshape1_pos p i n : 0 < p <= n -> 0 < subshape1 p i n.
Proof.
  intros H. unfold subshape1. assert (1 <= n / p) by (apply Z.div_le_lower_bound; lia). destruct (i <? n mod p); lia.
Qed.

Section Whole.
  Variables (P : part) (a : upsample_args exact_types) (X Y : list Z).
  Hypothesis HU : usable P a X Y.
  Let Ps := p_shape P.

  Lemma us_Ylen : length Y = length X.
  Proof. exact (out_length a X Y (us_out _ _ _ _ HU)). Qed.

  Lemma us_nonneg : nonneg_shape X.
  Proof. eapply Forall_impl; [|exact (us_pos _ _ _ _ HU)]. cbn. lia. Qed.

  Lemma us_Xpos j : (j < length X)%nat -> 0 < nth j X 0.
  Proof. intros Hj. pose proof (us_pos _ _ _ _ HU) as H. now apply pos_nth. Qed.

  Lemma us_pspos j : (j < length X)%nat -> 0 < nth j Ps 0.
  Proof. intros Hj. pose proof (us_part _ _ _ _ HU) as H. pose proof (us_len _ _ _ _ HU). apply pos_nth; [apply H|]. unfold Ps. lia. Qed.

  Lemma us_Ypos j : (j < length X)%nat -> 0 < nth j Y 0.
  Proof. intros Hj. pose proof (us_blocks _ _ _ _ HU j Hj). pose proof (us_pspos j Hj). unfold Ps in *. lia. Qed.

  Lemma us_Ynonneg : nonneg_shape Y.
  Proof.
    unfold nonneg_shape. apply Forall_nth. intros j d Hj. rewrite us_Ylen in Hj. rewrite (nth_indep _ d 0) by (rewrite us_Ylen; lia).
    pose proof (us_Ypos j Hj). lia.
  Qed.

  Section Dim.
    Variables (j : nat) (i : Z).
    Hypothesis Hj : (j < length X)%nat.
    Hypothesis Hi : 0 <= i < nth j Ps 0.

    Lemma us_ne : start1 (nth j Ps 0) i (nth j Y 0) < start1 (nth j Ps 0) (i + 1) (nth j Y 0).
    Proof.
      pose proof (us_blocks _ _ _ _ HU j Hj). rewrite start1_step by lia.
      pose proof (subshape1_pos (nth j Ps 0) i (nth j Y 0) ltac:(unfold Ps in *; lia)). lia.
    Qed.

    (** The needed part, in every dimension. *)
    Lemma us_first_last : 0 <= dim_first P a X Y j i < dim_last P a X Y j i /\ dim_last P a X Y j i <= nth j X 0.
    Proof.
      pose proof us_ne as NE. destruct (is_feature j) eqn:Hf.
      - apply first_last; auto; [|unfold Ps in *; lia]. apply (us_sensible _ _ _ _ HU). unfold is_feature in Hf. apply Nat.leb_le in Hf. lia.
      - assert (E : nth j Y 0 = nth j X 0).
        { unfold is_feature in Hf. apply Nat.leb_gt in Hf. destruct (us_same _ _ _ _ HU). destruct j as [|[|]]; auto; lia. }
        rewrite E in NE. pose proof (us_Xpos j Hj). rewrite first_other, last_other by (auto; lia). fold Ps.
        pose proof (start1_mono (nth j Ps 0) 0 i (nth j X 0) ltac:(lia) ltac:(lia) ltac:(lia)) as A1. rewrite start1_0 in A1 by lia.
        pose proof (start1_mono (nth j Ps 0) (i + 1) (nth j Ps 0) (nth j X 0) ltac:(lia) ltac:(lia) ltac:(lia)) as A2. rewrite start1_P in A2 by lia.
        destruct (u_align a); lia.
    Qed.

    Lemma us_other : (j < 2)%nat ->
      dim_first P a X Y j i = start1 (nth j Ps 0) i (nth j Y 0) /\
      dim_last P a X Y j i = start1 (nth j Ps 0) (i + 1) (nth j Y 0) /\ nth j Y 0 = nth j X 0.
    Proof.
      intros Hj2. pose proof us_ne as NE.
      assert (E : nth j Y 0 = nth j X 0).
      { destruct (us_same _ _ _ _ HU). destruct j as [|[|]]; auto; lia. }
      rewrite E in *. pose proof (us_Xpos j Hj).
      assert (Hf : is_feature j = false) by (unfold is_feature; apply Nat.leb_gt; lia).
      rewrite first_other, last_other by (auto; lia). fold Ps. split; auto. split; auto.
      destruct (us_whole _ _ _ _ HU) as [->|[W0 W1]]; auto.
      assert (W : nth j Ps 0 = 1) by (unfold Ps; destruct j as [|[|]]; auto; lia).
      rewrite W in *. assert (Ei : i = 0) by lia. rewrite Ei. change (0 + 1) with 1. rewrite start1_P by lia. destruct (u_align a); lia.
    Qed.
  End Dim.

  Lemma us_valid_nth idx j : valid_index Ps idx -> (j < length X)%nat -> 0 <= nth j idx 0 < nth j Ps 0.
  Proof. intros Hi Hj. apply index_nth; auto. pose proof (us_len _ _ _ _ HU). unfold Ps. lia. Qed.

  (** The extents of a worker's tensor after the halo exchange. *)
  Definition exchanged_shape (idx : list Z) : list Z :=
    map2 (fun h n => fst h + n + snd h) (e_halo (info P a X Y idx)) (block_shape (balanced X Ps) idx).

  Definition needed_shape (idx : list Z) : list Z :=
    vec (length X) (fun j => dim_last P a X Y j (nth j idx 0) - dim_first P a X Y j (nth j idx 0)).

  Lemma exchanged_nth idx j : valid_index Ps idx -> (j < length X)%nat ->
    nth j (exchanged_shape idx) 0 =
    fst (nth j (e_halo (info P a X Y idx)) (0, 0)) + subshape1 (nth j Ps 0) (nth j idx 0) (nth j X 0) + snd (nth j (e_halo (info P a X Y idx)) (0, 0)).
  Proof.
    intros Hi Hj. pose proof (us_len _ _ _ _ HU) as HL. fold Ps in HL. pose proof (us_part _ _ _ _ HU) as (_ & _ & Hp & _). fold Ps in Hp.
    pose proof (valid_index_length _ _ Hi) as El.
    assert (E1 : length (e_halo (info P a X Y idx)) = length X) by (unfold info, interpolate_exchange_info, interpolate_halo_shape; cbn [e_halo]; apply vec_length).
    unfold exchanged_shape. rewrite map2_nth with (da := (0, 0)) (db := 0).
    - rewrite bshape_nth by (auto; lia). reflexivity.
    - lia.
    - rewrite block_shape_length; unfold balanced; rewrite map2_length; lia.
  Qed.

  Lemma exchanged_length idx : valid_index Ps idx -> length (exchanged_shape idx) = length X.
  Proof.
    intros Hi. pose proof (us_len _ _ _ _ HU) as HL. fold Ps in HL. pose proof (valid_index_length _ _ Hi) as El.
    assert (E1 : length (e_halo (info P a X Y idx)) = length X) by (unfold info, interpolate_exchange_info, interpolate_halo_shape; cbn [e_halo]; apply vec_length).
    unfold exchanged_shape. rewrite map2_length; [auto|]. rewrite block_shape_length; unfold balanced; rewrite map2_length; lia.
  Qed.

  (** The slice in every dimension. *)
  Lemma us_slice idx : valid_index Ps idx ->
    map2 py_range (exchanged_shape idx) (e_needed (info P a X Y idx)) = e_needed (info P a X Y idx) /\
    compute_nd_slice_shape (e_needed (info P a X Y idx)) = needed_shape idx.
  Proof.
    intros Hi. pose proof (us_len _ _ _ _ HU) as HL. fold Ps in HL.
    pose proof (exchanged_length idx Hi) as E1.
    pose proof (info_needed_length P a X Y HL idx Hi) as E2.
    assert (K : forall j, (j < length X)%nat ->
      py_range (nth j (exchanged_shape idx) 0) (nth j (e_needed (info P a X Y idx)) (0, 0)) = nth j (e_needed (info P a X Y idx)) (0, 0) /\
      snd (nth j (e_needed (info P a X Y idx)) (0, 0)) - fst (nth j (e_needed (info P a X Y idx)) (0, 0)) = nth j (needed_shape idx) 0).
    { intros j Hj. rewrite exchanged_nth by auto. unfold needed_shape. rewrite vec_nth by auto.
      destruct (us_first_last j (nth j idx 0) Hj (us_valid_nth idx j Hi Hj)) as [F1 F2].
      destruct (slice_placed P a X Y (us_part _ _ _ _ HU) us_nonneg HL (us_out _ _ _ _ HU) us_Ynonneg idx j Hi Hj F1 F2)
        as (K1 & K2 & K3 & K4 & K5 & K6 & K7). split; [exact K1|]. lia. }
    split.
    - apply list_eq_nth with (d := (0, 0)); [rewrite map2_length; lia|]. rewrite map2_length by lia. intros j Hj.
      rewrite map2_nth with (da := 0) (db := (0, 0)) by lia. apply K. lia.
    - unfold compute_nd_slice_shape. apply list_eq_nth with (d := 0); [rewrite map_length; unfold needed_shape; rewrite vec_length; lia|].
      rewrite map_length. intros j Hj. rewrite nth_indep with (d' := (fun s : Z * Z => snd s - fst s) (0, 0)) by (rewrite map_length; lia).
      rewrite (map_nth (fun s : Z * Z => snd s - fst s)). apply K. lia.
  Qed.
End Whole.

Section WholeKernel.
  Variables (P : part) (a : upsample_args exact_types) (X Y : list Z).
  Hypothesis HU : usable P a X Y.
  Let Ps := p_shape P.
  Variable idx : list Z.
  Hypothesis Hi : valid_index Ps idx.

  Let yb := block_shape (balanced Y Ps) idx.

  Lemma us_Plen : length X = length Ps. Proof. exact (us_len _ _ _ _ HU). Qed.
  Lemma us_yb_len : length yb = length X.
  Proof.
    pose proof us_Plen. pose proof (us_Ylen P a X Y HU). pose proof (valid_index_length _ _ Hi).
    unfold yb. rewrite block_shape_length; unfold balanced; rewrite map2_length; lia.
  Qed.
  Lemma us_yb_nth j : (j < length X)%nat -> nth j yb 0 = subshape1 (nth j Ps 0) (nth j idx 0) (nth j Y 0).
  Proof.
    intros Hj. pose proof us_Plen. pose proof (us_Ylen P a X Y HU). pose proof (us_part _ _ _ _ HU) as (_ & _ & Hp & _).
    apply bshape_nth; auto; lia.
  Qed.
  Lemma us_local_y : map2 Z.sub (sub_stop Ps Y idx) (sub_start Ps Y idx) = yb.
  Proof.
    pose proof us_Plen. pose proof (us_Ylen P a X Y HU) as EL. pose proof (us_part _ _ _ _ HU) as (_ & _ & Hp & _).
    fold Ps in Hp. pose proof (us_Ynonneg P a X Y HU) as HY.
    assert (L1 : length (sub_start Ps Y idx) = length X).
    { unfold sub_start. destruct (proj1 C03_proof Ps Y idx Hp HY ltac:(lia) Hi) as (_ & -> & _).
      rewrite <- balanced_block_lo by (auto; lia). pose proof (valid_index_length _ _ Hi). rewrite block_lo_length; unfold balanced; rewrite map2_length; lia. }
    assert (L2 : length (sub_stop Ps Y idx) = length X).
    { unfold sub_stop. destruct (proj1 C03_proof Ps Y idx Hp HY ltac:(lia) Hi) as (_ & _ & ->).
      rewrite <- balanced_block_hi by (auto; lia). pose proof (valid_index_length _ _ Hi).
      unfold block_hi, balanced. rewrite !map2_length; rewrite ?map2_length; lia. }
    apply list_eq_nth with (d := 0); [rewrite map2_length, us_yb_len; lia|]. rewrite map2_length by lia. intros j Hj.
    rewrite map2_nth with (da := 0) (db := 0) by lia. rewrite us_yb_nth by lia.
    rewrite sub_start_nth, sub_stop_nth by (auto; lia). rewrite step by (auto; lia). lia.
  Qed.

  (** The local extents: the same batches and channels. *)
  Lemma us_local : exists nb nc xs ys,
    needed_shape P a X Y idx = nb :: nc :: xs /\ yb = nb :: nc :: ys /\
    (1 <= length xs <= 3)%nat /\ length ys = length xs /\ pos_shape (nb :: nc :: xs) /\ pos_shape (nb :: nc :: ys).
  Proof.
    pose proof us_yb_len as L1. pose proof us_Plen as HL. pose proof (us_dims _ _ _ _ HU) as HD. pose proof (us_Ylen P a X Y HU) as EL.
    assert (L2 : length (needed_shape P a X Y idx) = length X) by apply vec_length.
    assert (N : forall j, (j < length X)%nat -> nth j (needed_shape P a X Y idx) 0 =
      dim_last P a X Y j (nth j idx 0) - dim_first P a X Y j (nth j idx 0)) by (intros; unfold needed_shape; now rewrite vec_nth).
    assert (E : forall j, (j < 2)%nat -> nth j (needed_shape P a X Y idx) 0 = nth j yb 0).
    { intros j Hj. rewrite N, us_yb_nth by lia.
      destruct (us_other P a X Y HU j (nth j idx 0) ltac:(lia) (us_valid_nth P a X Y HU idx j Hi ltac:(lia)) Hj) as (-> & -> & _).
      fold Ps. rewrite step by (auto; lia). lia. }
    assert (PX : pos_shape (needed_shape P a X Y idx)).
    { apply Forall_nth. intros j d Hj. rewrite L2 in Hj. rewrite nth_indep with (d' := 0) by lia. rewrite N by auto.
      destruct (us_first_last P a X Y HU j (nth j idx 0) Hj (us_valid_nth P a X Y HU idx j Hi Hj)). lia. }
    assert (PY : pos_shape yb).
    { apply Forall_nth. intros j d Hj. rewrite L1 in Hj. rewrite nth_indep with (d' := 0) by lia. rewrite us_yb_nth by auto.
      apply subshape1_pos. pose proof (us_blocks _ _ _ _ HU j Hj). pose proof (us_pspos P a X Y HU j Hj). unfold Ps in *. lia. }
    destruct (needed_shape P a X Y idx) as [|nb [|nc xs]]; cbn [length] in L2; try lia.
    destruct yb as [|nb' [|nc' ys]]; cbn [length] in L1; try lia.
    pose proof (E 0%nat ltac:(lia)) as E0. pose proof (E 1%nat ltac:(lia)) as E1. cbn [nth] in E0, E1. subst nb' nc'.
    exists nb, nc, xs, ys. repeat split; auto; lia.
  Qed.
End WholeKernel.
