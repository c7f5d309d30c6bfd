(** Sliding-window layers whatever the arithmetic of torch: C60. *)

From Verif Require Import Prelude SpecIndex SpecLayout SpecPartition SpecHalo ModelSlicing ModelDecomposition
  ModelPartition ProofSlicing ProofDecomposition ProofPartition Ring Tensor ModelCollectives PropCollectives PropExchange
  ModelUtilities PropUtilities Blocks P2P Rounds ModelRepartition ProofTransfer ProofRepartition PropRepartition ModelHaloMixin ProofHaloMixin PropHaloMixin
  ModelHaloExchange PropHaloExchange ModelFeatureLayer SpecFeature ProofFeatureLayer PropFeatureLayer
  PropFeatureConv PropFeatureCommon ModelGradients ProofGradients PropUpsampleGrad ModelFeatureGrad SpecFeatureGrad ProofFeatureGrad
  PropFeatureGrad ModelMaxPoolGrad SpecMaxPoolGrad ProofMaxPoolGrad PropMaxPoolGrad ModelTorch SpecWindow.
Local Open Scope Z_scope.

(** Whatever torch's layers compute from a window on each worker, the workers end
    up with the blocks of one possible output of the sequential layer. *)
Definition C60_windows_statement : Prop :=
  forall (R : CRing) (world : list Z) (P : part) (L : layout) (w : window)
    (Q : @window_relation R) (cout : Z -> Z) (value : R) (torch : Z -> tensor R -> result (tensor R))
    (G : tensor R) (x : Z -> tensor R) (b c : Z) (xs ys : list Z),
    feature_given world P L w ->
    relation_local w Q cout -> 0 <= cout c -> nth 1 (p_shape P) 0 = 1 \/ relation_per_channel Q cout ->
    (forall v c', In v (p_ranks P) -> 0 < c' -> (nth 1 (p_shape P) 0 = 1 -> c' = c) -> computes Q cout value (plain w) c' (torch v)) ->
    has_output w G b c xs ys -> holds_blocks P L G x -> within L w (b :: c :: ys) ->
    let shape v := tshape (x v) in
    let arg := halo_argument P w value shape x in
    let plan := halo_plan P w shape in
    let layer := history_rounds P (fun v => tshape (arg v)) (fun v => u_recv (plan v)) (fun v => u_send (plan v)) in
    halo_ready world P w value x /\
    forall pre init eager g, same_calls P arg pre -> ends world (layer (pre ++ [HForward arg])) init eager g ->
      exists Y, is_windowed Q cout value w G Y /\
        (forall idx v, worker_at P idx v ->
           exists t, feature_output_by P w torch shape x (halo_result g) v = Ok t /\
                     teq t (block (balanced (tshape Y) (p_shape P)) idx Y)) /\
        (forall v, In v world -> ~ In v (p_ranks P) -> feature_output_by P w torch shape x (halo_result g) v = Ok (x v)).

(** ** One worker *)

Lemma subshape1_one n : subshape1 1 0 n = n.
Proof. unfold subshape1. rewrite Z.div_1_r, Z.mod_1_r. cbn. lia. Qed.

Section Worker.
  Context {R : CRing}.
  Variables (world : list Z) (P : part) (L : layout) (w : window).
  Hypothesis HG : feature_given world P L w.
  Variables (Q : @window_relation R) (cout : Z -> Z) (value : R).
  Variables (G : tensor R) (b c : Z) (xs ys : list Z).
  Hypothesis HL : relation_local w Q cout.
  Hypothesis HO : has_output w G b c xs ys.
  Hypothesis HE : layout_shape L = b :: c :: xs.
  Hypothesis HI : within L w (b :: c :: ys).

  Lemma wn_shape : exists p0 p1 ps, p_shape P = p0 :: p1 :: ps /\ length ps = length ys /\ length xs = length (w_kernel w) /\
    0 < p0 /\ 0 < p1 /\ Forall (fun n => 0 < n) ps.
  Proof.
    destruct HG as (_ & _ & (_ & _ & Hp & _) & _ & HW & Hl & _). destruct HO as (_ & [Lc _] & _).
    pose proof (f_equal (@length Z) HE) as E. rewrite layout_shape_length, <- layout_workers_length, HW in E. cbn [length] in E.
    destruct (p_shape P) as [|p0 [|p1 ps]]; try discriminate. exists p0, p1, ps. inversion Hp as [|? ? A Hp']. inversion Hp' as [|? ? B Hp''].
    cbn [length] in *. repeat split; auto; lia.
  Qed.

  (** Every block has output. *)
  Lemma wn_positive idx : valid_index (p_shape P) idx -> Forall (fun n => 0 < n) (block_shape (balanced (b :: c :: ys) (p_shape P)) idx).
  Proof.
    intros Hi. destruct wn_shape as (p0 & p1 & ps & EP & Lp & _). assert (HPs : part_ok P) by apply HG. destruct HPs as (_ & _ & Hp & _).
    assert (Ll : length (b :: c :: ys) = length (p_shape P)) by (rewrite EP; cbn [length]; lia).
    pose proof (valid_index_length _ _ Hi) as Li.
    assert (HW : layout_workers L = p_shape P) by apply HG.
    assert (LL : length L = length (p_shape P)) by (rewrite <- HW; now rewrite layout_workers_length).
    assert (Lb : length (balanced (b :: c :: ys) (p_shape P)) = length (p_shape P)) by (unfold balanced; rewrite map2_length; auto).
    apply Forall_forall. intros z Hz. apply (In_nth _ _ 0) in Hz as (j & Hj & <-). rewrite block_shape_length in Hj by lia.
    rewrite block_shape_nth by lia. unfold balanced. rewrite map2_nth with (da := 0) (db := 0) by lia.
    specialize (HI j ltac:(lia)). unfold dim_within in HI. rewrite pad1_length in HI.
    assert (En : Z.of_nat (length (nth j L [])) = nth j (p_shape P) 0) by (rewrite <- HW; symmetry; apply workers_nth; lia).
    rewrite En in HI. pose proof Hi as Hi'. apply valid_index_nth in Hi' as [_ Hn]. specialize (Hn j ltac:(lia)).
    specialize (HI (Z.to_nat (nth j idx 0)) ltac:(lia)). destruct HI as [A _]. rewrite zsum_firstn_S in A. lia.
  Qed.

  Lemma wn_plain_counts xs0 : length xs0 = length (w_kernel w) -> Forall (fun n => 0 < n) (plain_out w xs0) -> counts xs0 (plain w) (plain_out w xs0).
  Proof.
    intros Lx Hp. split; [apply plain_out_length|]. intros j Hj. cbn [plain w_kernel w_stride w_padding w_dilation].
    destruct (window_nth _ _ j (proj2 (proj2 (proj2 (proj2 (proj2 (proj2 HG)))))) ltac:(lia)) as (A & B & C & D).
    assert (E0 : nth j (repeat 0 (length (w_kernel w))) 0 = 0).
    { destruct (nth_in_or_default j (repeat 0 (length (w_kernel w))) 0) as [Hr|Hr]; auto. now apply repeat_spec in Hr. }
    rewrite E0. rewrite plain_out_nth by auto. split.
    - rewrite Forall_forall in Hp. specialize (Hp (nth j (plain_out w xs0) 0)). rewrite plain_out_nth in Hp by auto.
      rewrite <- plain_out_nth in Hp at 1 by auto. apply Z.lt_le_incl, Hp, nth_In. now rewrite plain_out_length.
    - intros o Ho. now apply out_extent_count.
  Qed.

  (** What torch computes from a tensor that shows the windows of [G]. *)
  Lemma wn_worker (torch : tensor R -> result (tensor R)) idx v e :
    0 <= cout c -> nth 1 (p_shape P) 0 = 1 \/ relation_per_channel Q cout -> (forall c', 0 < c' -> (nth 1 (p_shape P) 0 = 1 -> c' = c) -> computes Q cout value (plain w) c' torch) ->
    worker_at P idx v -> shows P w b c xs ys idx e value G ->
    exists y, torch e = Ok y /\ tshape y = block_shape (balanced (b :: cout c :: ys) (p_shape P)) idx /\
      forall p b1 c1 o1, valid_index (tshape y) p -> vadd (block_lo (balanced (b :: cout c :: ys) (p_shape P)) idx) p = b1 :: c1 :: o1 ->
        Q c c1 (fun ch t => value_at G value (b1 :: ch :: seen_point (length xs) w o1 t)) (tat y p).
  Proof.
    intros Hc HC HT Hv (b0 & c0 & xs0 & E0 & E1 & V).
    destruct wn_shape as (p0 & p1 & ps & EP & Lp & Lx & P0 & P1 & Pp). pose proof (wn_positive idx (proj1 Hv)) as Pos.
    rewrite <- E1 in Pos. inversion Pos as [|? ? B0 Pos']. inversion Pos' as [|? ? C0 Pos'']. subst.
    destruct Hv as [Hi _]. rewrite EP in *. apply valid_index_cons_inv in Hi as (i0 & i' & -> & H0 & Hi).
    apply valid_index_cons_inv in Hi as (i1 & is & -> & H1 & Hi).
    assert (S1 : forall n, block_shape (balanced (b :: n :: ys) (p0 :: p1 :: ps)) (i0 :: i1 :: is) =
                 subshape1 p0 i0 b :: subshape1 p1 i1 n :: block_shape (balanced ys ps) is).
    { intros n. unfold block_shape, balanced. cbn [map2]. now rewrite !balanced1_nth by lia. }
    assert (S2 : forall n, block_lo (balanced (b :: n :: ys) (p0 :: p1 :: ps)) (i0 :: i1 :: is) =
                 start1 p0 i0 b :: start1 p1 i1 n :: block_lo (balanced ys ps) is).
    { intros n. unfold block_lo, balanced. cbn [map2]. now rewrite !balanced1_prefix by lia. }
    rewrite S1 in E1. injection E1 as Eb Ec Eo.
    assert (Lw : length (block_shape (balanced ys ps) is) = length (w_kernel w)).
    { rewrite block_shape_length; unfold balanced; rewrite map2_length by lia; [|apply valid_index_length in Hi; lia].
      destruct HO as (_ & [Lc _] & _). lia. }
    assert (Lx0 : length xs0 = length (w_kernel w)) by (rewrite <- (plain_out_length w xs0), Eo; exact Lw).
    assert (Hc1 : nth 1 (p0 :: p1 :: ps) 0 = 1 -> c0 = c).
    { cbn [nth]. intros ->. assert (i1 = 0) by lia. subst i1. now rewrite subshape1_one in Ec. }
    destruct (HT c0 C0 Hc1 e b0 xs0 (plain_out w xs0)) as (y & Ey & b2 & c2 & xs2 & ys2 & (F0 & F1 & _) & Sy & Vy).
    { split; [exact E0|]. split; [now apply wn_plain_counts|]. cbn [plain w_kernel]. auto. }
    rewrite E0 in F0. injection F0 as <- <- <-.
    assert (ys2 = plain_out w xs0) as ->.
    { pose proof (wn_plain_counts xs0 Lx0 Pos'') as [A1 A2]. destruct F1 as [B1 B2]. apply (nth_ext _ _ 0 0); [congruence|].
      intros j Hj. rewrite B1 in Hj. exact (window_count_unique _ _ _ _ _ _ _ (B2 j Hj) (A2 j Hj)). }
    (* the windows of [e] *)
    assert (Ve : forall b' ch o t, 0 <= b' < b0 -> 0 <= ch < c0 -> valid_index (plain_out w xs0) o -> valid_index (w_kernel w) t ->
      value_at e value (b' :: ch :: vec (length xs0) (fun j => nth j (w_stride (plain w)) 0 * nth j o 0 - nth j (w_padding (plain w)) 0
         + nth j (w_dilation (plain w)) 0 * nth j t 0)) = tat e (b' :: ch :: window_point w o t)).
    { intros b' ch o t Hb' Hch Ho Ht. cbn [plain w_kernel w_stride w_padding w_dilation].
      assert (Hw : window_ok (nf w) w) by apply HG.
      pose proof (valid_index_length _ _ Ho) as Lo. rewrite plain_out_length in Lo. pose proof (valid_index_length _ _ Ht) as Lt.
      replace (vec (length xs0) _) with (window_point w o t).
      - unfold value_at. rewrite E0. replace (inside _ _) with true; auto. symmetry. apply inside_spec.
        apply valid_index_cons. split; auto. apply valid_index_cons. split; auto. apply window_inside; auto.
      - apply list_eq_nth with (d := 0); [rewrite vec_length, window_point_length by (auto; unfold nf; lia); unfold nf; lia|].
        intros j Hj. rewrite window_point_length in Hj by (auto; unfold nf; lia). unfold nf in Hj.
        rewrite vec_nth by lia. rewrite window_point_nth by (auto; unfold nf; lia).
        replace (nth j (repeat 0 (length (w_kernel w))) 0) with 0; [lia|].
        destruct (nth_in_or_default j (repeat 0 (length (w_kernel w))) 0) as [Hr|Hr]; auto. now apply repeat_spec in Hr. }
    exists y. split; auto.
    assert (Hcc : subshape1 p1 i1 (cout c) = cout c0 /\ forall c', 0 <= c' < cout c0 -> 0 <= c' /\ c' < cout c0).
    { split; [|intros; lia]. destruct HC as [HC|[HC _]]; [|rewrite !HC; auto]. cbn [nth] in HC. subst p1. assert (i1 = 0) by lia. subst i1.
      rewrite subshape1_one in *. congruence. }
    destruct Hcc as [Hcc _].
    split; [rewrite Sy, S1, Hcc, Eo; congruence|].
    intros p b1 c1 o1 Hp E. rewrite Sy in Hp. pose proof Hp as Hp'. apply valid_index_cons_inv in Hp' as (b' & p' & -> & Hb' & Hp').
    apply valid_index_cons_inv in Hp' as (c' & o & -> & Hc' & Ho).
    rewrite S2 in E. unfold vadd in E. cbn [map2] in E. injection E as <- <- Eo1. fold (vadd (block_lo (balanced ys ps) is) o) in Eo1.
    specialize (Vy b' c' o). rewrite Sy in Vy. specialize (Vy Hp).
    assert (Vs : forall ch t, 0 <= ch < c0 -> valid_index (w_kernel w) t ->
      tat e (b' :: ch :: window_point w o t) = value_at G value (start1 p0 i0 b + b' :: start1 p1 i1 c + ch :: seen_point (length xs) w o1 t)).
    { intros ch t Hch Ht. apply V; auto.
      - rewrite S1. apply valid_index_cons. split; [lia|]. apply valid_index_cons. split; [lia|]. congruence.
      - rewrite S2. unfold vadd. cbn [map2]. fold (vadd (block_lo (balanced ys ps) is) o). now rewrite Eo1. }
    destruct HC as [HC|HC].
    - cbn [nth] in HC. subst p1. assert (i1 = 0) by lia. subst i1. rewrite !start1_0 in * by lia. rewrite subshape1_one in *.
      subst c0. cbn [Z.add]. refine (HL _ _ _ _ _ _ Hc' Vy). intros ch t Hch Ht. rewrite Ve by auto. now apply Vs.
    - destruct HC as [Hid (q & Hq)]. rewrite Hid in *. apply Hq in Vy.
      set (g := fun (_ : Z) t => value_at G value (start1 p0 i0 b + b' :: start1 p1 i1 c + c' :: seen_point (length xs) w o1 t)).
      apply Hq. change (q (g c') (tat y (b' :: c' :: o))). apply (Hq c0 c').
      refine (HL c0 c' (fun _ => (fun t => value_at e value (b' :: c' :: _))) g _ _ _ _); [|rewrite Hid; exact Hc'|apply Hq; exact Vy].
      intros ch t Hch Ht. cbv beta. rewrite Ve by auto. unfold g. now apply Vs.
  Qed.
End Worker.

Lemma C60_windows_proof : C60_windows_statement.
Proof.
  intros R world P L w Q cout value torch G x b c xs ys HG HL Hc HC HT HO HB HI shape arg plan layer.
  split; [exact (halo_started world P L w value G x HG HB)|]. intros pre init eager g Hpre Hend.
  pose proof HO as (EG & Hcnt & Hb & Hc0 & Hys & _).
  assert (HP : part_ok P) by apply HG. assert (HE : layout_shape L = b :: c :: xs) by (rewrite <- EG; symmetry; apply HB).
  assert (HPl : planned P (pad_layout L (0 :: 0 :: w_padding w)) (feature_halos L w) (fun v => tshape (arg v)) (fun v => u_recv (plan v)) (fun v => u_send (plan v)))
    by exact (g_planned world P L w value G x HG 0 0 [] HB).
  assert (HS : forall idx v, worker_at P idx v -> shape v = block_shape L idx).
  { intros idx v Hv. destruct HB as [_ Hx]. exact (proj1 (Hx idx v Hv)). }
  pose proof (g_calls world P L w value G x HG 0 0 [] HB pre Hpre) as Cl.
  set (out := b :: cout c :: ys). set (out_of := fun v => feature_output_by P w torch shape x (halo_result g) v).
  assert (HW : forall idx v, worker_at P idx v -> exists y, out_of v = Ok y /\ tshape y = block_shape (balanced out (p_shape P)) idx /\
    forall p b1 c1 o1, valid_index (tshape y) p -> vadd (block_lo (balanced out (p_shape P)) idx) p = b1 :: c1 :: o1 ->
        Q c c1 (fun ch t => value_at G value (b1 :: ch :: seen_point (length xs) w o1 t)) (tat y p)).
  { intros idx v Hv.
    pose proof (windows_seen world P L w HG b c xs ys Hcnt Hb Hc0 Hys HI _ _ _ HPl value G x pre init eager g idx v EG HB Cl Hend Hv) as Sh.
    destruct (wn_worker world P L w HG Q cout value G b c xs ys HL HO HE HI (torch v) idx v _ Hc HC (fun c' => HT v c' (worker_at_In _ _ _ Hv)) Hv Sh)
      as (y & Ey & Sy & Vy).
    exists y. split; auto. unfold out_of, feature_output_by. rewrite (fg_setup world P L w HG shape HS idx v Hv). exact Ey. }
  destruct (wn_shape world P L w HG G b c xs ys HO HE) as (p0 & p1 & ps & EP & Lp & _).
  assert (Ll : length out = length (p_shape P)) by (rewrite EP; unfold out; cbn [length]; lia).
  assert (Nn : nonneg_shape out).
  { unfold out. constructor; [lia|]. constructor; [lia|]. eapply Forall_impl; [|exact Hys]. cbn. lia. }
  assert (HPs : pos_shape (p_shape P)) by apply HP.
  pose proof (balanced_ok out (p_shape P) HPs Nn) as Ok1. pose proof (balanced_workers out (p_shape P) HPs Ll) as Ok2.
  pose proof (balanced_shape out (p_shape P) HPs Nn Ll) as Ok3.
  set (Y := glue (balanced out (p_shape P)) (fun idx => val (out_of (wk P idx)))).
  assert (SY : tshape Y = out) by exact Ok3.
  exists Y. split; [|split].
  - exists b, c, xs, ys. split; [auto|]. split; [exact SY|]. intros b1 c1 o1 Hi. rewrite SY, <- Ok3 in Hi.
    destruct (layout_tiles_exists _ _ Ok1 Hi) as (idx & Hidx & Hbox).
    destruct (local_point _ idx _ Hidx Hbox) as [Hp Ev].
    unfold Y. cbn [glue tat]. rewrite (owner_unique _ Ok1 _ idx Hidx Hbox).
    rewrite Ok2 in Hidx. pose proof (wk_worker P idx HP Hidx) as Hv. destruct (HW idx _ Hv) as (y & -> & Sy & Vy). cbn [val].
    apply Vy; auto. now rewrite Sy.
  - intros idx v Hv. destruct (HW idx v Hv) as (y & Ey & Sy & _). exists y. split; [exact Ey|]. rewrite SY.
    pose proof (glue_block _ Ok1 (fun idx => val (out_of (wk P idx))) idx) as T. fold Y in T.
    cbv beta in T. rewrite (worker_wk _ _ _ Hv), Ey in T. cbn [val] in T. apply T; auto. rewrite Ok2. apply Hv.
  - intros v _ Hv. unfold out_of, feature_output_by. pose proof (fg_inactive P w shape v Hv) as E. rewrite E. reflexivity.
Qed.

(** ** Convolutions *)

(** The bias given to torch. *)
Definition same_bias {R : CRing} (b b0 : option (tensor R)) : Prop :=
  match b, b0 with
  | Some b, Some b0 => teq b b0
  | None, None => True
  | _, _ => False
  end.

(** Whatever torch's convolution computes from a window, given the weight and the
    bias of the first worker of [P]. *)
Definition C60_convolutions_statement : Prop :=
  forall (R : CRing) (world : list Z) (P : part) (L : layout) (w : window)
    (Q : @window_relation R) (cout : Z) (use_bias : bool) (dt : Z -> Z) (rg : Z -> bool)
    (torch : Z -> window -> tensor R -> option (tensor R) -> tensor R -> result (tensor R))
    (weight bias : Z -> tensor R) (G : tensor R) (x : Z -> tensor R) (b c : Z) (xs ys : list Z),
    feature_given world P L w -> nth 1 (p_shape P) 0 = 1 -> 0 < cout ->
    relation_local w Q (fun _ => cout) ->
    (forall v, In v (p_ranks P) -> nonneg_shape (tshape (weight v)) /\ nonneg_shape (tshape (bias v))) ->
    (forall v w' wt b', In v (p_ranks P) -> w' = w \/ w' = plain w ->
       teq wt (weight (hd 0 (p_ranks P))) -> same_bias b' (if use_bias then Some (bias (hd 0 (p_ranks P))) else None) ->
       computes Q (fun _ => cout) rzero w' c (torch v w' wt b')) ->
    has_output w G b c xs ys -> holds_blocks P L G x -> ((1 < length (p_ranks P))%nat -> within L w (b :: c :: ys)) ->
    let shape v := tshape (x v) in
    let arg := halo_argument P w rzero shape x in
    let plan := halo_plan P w shape in
    let layer := history_rounds P (fun v => tshape (arg v)) (fun v => u_recv (plan v)) (fun v => u_send (plan v)) in
    halo_ready world P w rzero x /\
    forall pre init eager g, same_calls P arg pre -> ends world (layer (pre ++ [HForward arg])) init eager g ->
      exists Y, is_windowed Q (fun _ => cout) rzero w G Y /\
        (forall idx v, worker_at P idx v ->
           exists t, conv_forward_by P w use_bias dt rg torch weight bias shape x (halo_result g) v = Ok t /\
                     teq t (block (balanced (tshape Y) (p_shape P)) idx Y)) /\
        (forall v, In v world -> ~ In v (p_ranks P) ->
           conv_forward_by P w use_bias dt rg torch weight bias shape x (halo_result g) v = Ok (x v)).

Lemma value_at_teq {R : CRing} (x G : tensor R) value q : teq x G -> value_at x value q = value_at G value q.
Proof. intros [E V]. unfold value_at. rewrite E. destruct (inside (tshape G) q) eqn:Ei; auto. apply V. rewrite E. now apply inside_spec. Qed.

Lemma windowed_teq {R : CRing} (Q : @window_relation R) cout value w (x G Y : tensor R) :
  relation_local w Q cout -> teq x G -> is_windowed Q cout value w x Y -> is_windowed Q cout value w G Y.
Proof.
  intros HL T (b & c & xs & ys & (E & H) & EY & V). exists b, c, xs, ys. split; [split; [destruct T; congruence|auto]|].
  split; auto. intros b' c' o Ho. refine (HL _ _ _ _ _ _ _ (V b' c' o Ho)).
  - intros ch t _ _. now apply value_at_teq.
  - rewrite EY in Ho. apply valid_index_cons in Ho as [_ Ho]. now apply valid_index_cons in Ho as [Ho _].
Qed.

Lemma C60_convolutions_proof : C60_convolutions_statement.
Proof.
  intros R world P L w Q cout use_bias dt rg torch weight bias G x b c xs ys HG HC Hcout HL Hs HT HO HB Hin shape arg plan layer.
  split; [exact (halo_started world P L w rzero G x HG HB)|]. intros pre init eager g Hpre Hend.
  assert (HP : part_ok P) by apply HG.
  assert (Hin0 : forall v, In v world -> ~ In v (p_ranks P) ->
     conv_forward_by P w use_bias dt rg torch weight bias shape x (halo_result g) v = Ok (x v)).
  { intros v _ Hv. unfold conv_forward_by. apply is_active_false in Hv. now rewrite Hv. }
  assert (Pb : forall v, In v (p_ranks P) -> exists wt bt,
     conv_parameter P dt rg weight v = Ok wt /\ teq wt (weight (hd 0 (p_ranks P))) /\
     (if use_bias then conv_parameter P dt rg bias v else Ok (bias v)) = Ok bt /\
     same_bias (if use_bias then Some bt else None) (if use_bias then Some (bias (hd 0 (p_ranks P))) else None)).
  { intros v Hr. destruct (parameter_ok world P L w HG dt rg weight v) as (wt & Ewt & Twt); auto; [intros u Hu; now apply Hs|].
    destruct use_bias.
    - destruct (parameter_ok world P L w HG dt rg bias v) as (bt & Ebt & Tbt); auto; [intros u Hu; now apply Hs|].
      exists wt, bt. auto.
    - exists wt, (bias v). cbn. auto. }
  destruct (Nat.eqb_spec (length (p_ranks P)) 1) as [E1|E1].
  - (* a single worker *)
    destruct (p_ranks P) as [|v0 [|]] eqn:Er; try discriminate. cbn [hd] in *.
    assert (Hones : p_shape P = repeat 1 (length L)).
    { destruct HG as (_ & _ & (_ & _ & Hp & Hz) & _ & HW & _). rewrite Er in Hz. cbn [length] in Hz.
      rewrite <- (layout_workers_length L), HW. clear - Hp Hz. induction Hp as [|n l Hn Hp IH]; [reflexivity|].
      cbn [zprod fold_right] in Hz. fold (zprod l) in Hz. pose proof (zprod_pos _ Hp).
      assert (n = 1) by nia. subst n. cbn [length repeat]. f_equal. apply IH. lia. }
    assert (H1 : Forall (fun n => n = 1) (p_shape P)).
    { rewrite Hones. apply Forall_forall. intros z Hz. now apply repeat_spec in Hz. }
    destruct (worker_at_exists P v0 HP) as (idx0 & Hv0); [rewrite Er; now left|].
    assert (HW : layout_workers L = p_shape P) by apply HG.
    destruct HB as [EGs HB].
    assert (T0 : teq (x v0) G).
    { eapply teq_trans; [exact (HB idx0 v0 Hv0)|]. apply single_block; auto; rewrite HW; auto. apply Hv0. }
    destruct (HT v0 w (weight v0) (if use_bias then Some (bias v0) else None) (or_introl eq_refl) (or_introl eq_refl)
      (teq_refl _) ltac:(destruct use_bias; cbn; auto using teq_refl) (x v0) b xs ys) as (y & Ey & Wy).
    { destruct HO as [EG HO]. split; auto. destruct T0; congruence. }
    apply (windowed_teq _ _ _ _ _ G) in Wy; auto. exists y. split; auto. split; auto.
    intros idx v Hv. assert (v = v0) as ->.
    { apply worker_at_In in Hv. rewrite Er in Hv. destruct Hv as [<-|[]]; auto. }
    exists y. split.
    + unfold conv_forward_by. rewrite Er. cbn [length Nat.eqb].
      rewrite (proj2 (is_active_spec [v0] v0) (or_introl eq_refl)). exact Ey.
    + assert (Hy : nonneg_shape (tshape y) /\ length (tshape y) = length (p_shape P)).
      { destruct Wy as (b2 & c2 & xs2 & ys2 & (E2 & [Lc2 _] & Hb2 & Hc2 & Hys2 & _) & Sy & _). rewrite Sy. split.
        - constructor; [lia|]. constructor; [lia|]. eapply Forall_impl; [|exact Hys2]. cbn. lia.
        - rewrite EGs in E2. apply (f_equal (@length Z)) in E2. rewrite layout_shape_length in E2. cbn [length] in *.
          rewrite Hones, repeat_length. lia. }
      destruct Hy as [Ny Ly]. assert (HPs : pos_shape (p_shape P)) by apply HP. apply teq_sym. apply single_block.
      * rewrite balanced_workers by auto. auto.
      * rewrite balanced_workers by auto. apply Hv.
      * now rewrite balanced_shape by auto.
  - assert (Hmany : (1 < length (p_ranks P))%nat).
    { pose proof (root_in world P L w HG) as Hr. destruct (p_ranks P) as [|? [|]]; [destruct Hr|cbn in E1; lia|cbn; lia]. }
    set (given := fun v => let wt := val (conv_parameter P dt rg weight v) in
      let bt := val (if use_bias then conv_parameter P dt rg bias v else Ok (bias v)) in (wt, if use_bias then Some bt else None)).
    destruct (C60_windows_proof R world P L w Q (fun _ => cout) rzero (fun v => torch v (plain w) (fst (given v)) (snd (given v)))
      G x b c xs ys HG HL ltac:(lia) (or_introl HC)) as (_ & K); auto.
    { intros v c' Hv _ Hc'. rewrite (Hc' HC). destruct (Pb v Hv) as (wt & bt & Ew & Tw & Eb & Tb). apply HT; auto; unfold given; cbv zeta; cbn [fst snd].
      - rewrite Ew. exact Tw.
      - rewrite Eb. exact Tb. }
    destruct (K pre init eager g Hpre Hend) as (Y & HY & K1 & _). exists Y. split; auto. split; auto.
    intros idx v Hv. destruct (K1 idx v Hv) as (t & Et & Tt). exists t. split; auto.
    pose proof (worker_at_In _ _ _ Hv) as Hr. destruct (Pb v Hr) as (wt & bt & Ew & _ & Eb & _).
    unfold conv_forward_by. rewrite (proj2 (is_active_spec _ _) Hr). cbn [negb].
    destruct (Nat.eqb_spec (length (p_ranks P)) 1); [lia|].
    rewrite Ew. cbn [rbind]. rewrite Eb. cbn [rbind]. rewrite <- Et. unfold feature_output_by. unfold given. rewrite Ew, Eb. reflexivity.
Qed.

(** ** Bit for bit *)

(** A layer that computes one function of the window. *)
Definition by_function {R : CRing} (f : @kernel R) : window_relation := fun c c' g r => r = f c c' g.

(** Elements that are words of [n] bits, of which torch computes any function: the
    outputs of the distributed layers have the bits of the output [Y] of the
    sequential layer. *)
Definition same_bits {n} (P : part) (Y : tensor (word_ring n)) (idx : list Z) (r : result (tensor (word_ring n))) : Prop :=
  exists t, r = Ok t /\ tshape t = block_shape (balanced (tshape Y) (p_shape P)) idx /\
    forall p : list Z, valid_index (tshape t) p ->
      @bits n (tat t p) = @bits n (tat Y (vadd (block_lo (balanced (tshape Y) (p_shape P)) idx) p)).

Definition C60_bits_statement : Prop :=
  forall (n : nat) (world : list Z) (P : part) (L : layout) (w : window)
    (f : @kernel (word_ring n)) (G Y : tensor (word_ring n)) (x : Z -> tensor (word_ring n)),
    feature_given world P L w -> holds_blocks P L G x ->
    let shape v := tshape (x v) in
    let rounds value := let arg := halo_argument P w value shape x in let plan := halo_plan P w shape in
      history_rounds P (fun v => tshape (arg v)) (fun v => u_recv (plan v)) (fun v => u_send (plan v)) in
    (* DistributedPool *)
    (forall (value : word_ring n) torch h, (forall c c' g, f c c' g = h (g c')) -> kernel_local w f (fun c => c) ->
       (forall v c, In v (p_ranks P) -> 0 < c -> computes (by_function f) (fun c => c) value (plain w) c (torch v)) ->
       is_windowed (by_function f) (fun c => c) value w G Y -> within L w (out_counts G Y) ->
       forall pre init eager g, same_calls P (halo_argument P w value shape x) pre ->
         ends world (rounds value (pre ++ [HForward (halo_argument P w value shape x)])) init eager g ->
         forall idx v, worker_at P idx v -> same_bits P Y idx (feature_output_by P w torch shape x (halo_result g) v)) /\
    (* DistributedFeatureConv *)
    (forall (cout : Z) (use_bias : bool) dt rg torch (weight bias : Z -> tensor (word_ring n)),
       nth 1 (p_shape P) 0 = 1 -> 0 < cout -> kernel_local w f (fun _ => cout) ->
       (forall v, In v (p_ranks P) -> nonneg_shape (tshape (weight v)) /\ nonneg_shape (tshape (bias v))) ->
       (forall v w' wt b', In v (p_ranks P) -> w' = w \/ w' = plain w ->
          teq wt (weight (hd 0 (p_ranks P))) -> same_bias b' (if use_bias then Some (bias (hd 0 (p_ranks P))) else None) ->
          computes (by_function f) (fun _ => cout) rzero w' (nth 1 (tshape G) 0) (torch v w' wt b')) ->
       is_windowed (by_function f) (fun _ => cout) rzero w G Y -> ((1 < length (p_ranks P))%nat -> within L w (out_counts G Y)) ->
       forall pre init eager g, same_calls P (halo_argument P w rzero shape x) pre ->
         ends world (rounds rzero (pre ++ [HForward (halo_argument P w rzero shape x)])) init eager g ->
         forall idx v, worker_at P idx v ->
           same_bits P Y idx (conv_forward_by P w use_bias dt rg torch weight bias shape x (halo_result g) v)).

Lemma function_local {R : CRing} w (f : @kernel R) cout : kernel_local w f cout -> relation_local w (by_function f) cout.
Proof. intros H c c' g g' r E Hc ->. unfold by_function. now apply H. Qed.

Lemma windowed_unique {R : CRing} (f : @kernel R) cout value w (G Y Y' : tensor R) :
  is_windowed (by_function f) cout value w G Y -> is_windowed (by_function f) cout value w G Y' -> teq Y Y'.
Proof.
  intros (b & c & xs & ys & (E & [A1 A2] & _) & S & V) (b2 & c2 & xs2 & ys2 & (E2 & [B1 B2] & _) & S2 & V2).
  rewrite E in E2. injection E2 as <- <- <-.
  assert (ys2 = ys) as ->.
  { apply (nth_ext _ _ 0 0); [congruence|]. intros j Hj. rewrite B1 in Hj.
    exact (window_count_unique _ _ _ _ _ _ _ (B2 j Hj) (A2 j Hj)). }
  split; [congruence|]. intros i Hi. pose proof Hi as Hi'. rewrite S in Hi'. apply valid_index_cons_inv in Hi' as (b' & i1 & -> & _ & Hi').
  apply valid_index_cons_inv in Hi' as (c' & o & -> & _ & _). rewrite (V b' c' o Hi). symmetry. apply V2. rewrite S2, <- S. exact Hi.
Qed.

Lemma block_same_bits n (P : part) idx (Y Y' t : tensor (word_ring n)) : valid_index (p_shape P) idx -> pos_shape (p_shape P) ->
  nonneg_shape (tshape Y) -> length (tshape Y) = length (p_shape P) ->
  teq Y' Y -> teq t (block (balanced (tshape Y') (p_shape P)) idx Y') -> same_bits P Y idx (Ok t).
Proof.
  intros Hi Hp Hn Hl [E V] [Et Vt]. exists t. split; auto. rewrite <- E. split; [exact Et|]. intros p Hp'. rewrite Vt by auto.
  cbn [block tat]. f_equal. apply V. rewrite <- E in Hn, Hl. rewrite <- (balanced_shape (tshape Y') (p_shape P)) at 1 by auto.
  pose proof (balanced_ok (tshape Y') (p_shape P) Hp Hn) as Ok1. apply (layout_tiles_inside _ _ idx Ok1).
  - now rewrite balanced_workers.
  - apply point_in_block; auto; [now rewrite balanced_workers|]. cbn [block tshape] in Et. rewrite <- Et. auto.
Qed.

Lemma windowed_sizes {R : CRing} world (P : part) L w (Q : @window_relation R) cout value (G Y : tensor R) x :
  feature_given world P L w -> holds_blocks P L G x -> is_windowed Q cout value w G Y -> (forall c, 0 < c -> 0 <= cout c) ->
  exists b c xs ys, has_output w G b c xs ys /\ out_counts G Y = b :: c :: ys /\ 0 <= cout c /\
    nonneg_shape (tshape Y) /\ length (tshape Y) = length (p_shape P).
Proof.
  intros HG [EG _] (b & c & xs & ys & HO & S & _) Hc. exists b, c, xs, ys. pose proof HO as (E & [Lc _] & Hb & Hc0 & Hys & _).
  split; auto. rewrite S. split; [|split; [auto|split]].
  - unfold out_counts. rewrite E, S. reflexivity.
  - constructor; [lia|]. constructor; [auto|]. eapply Forall_impl; [|exact Hys]. cbn. lia.
  - destruct HG as (_ & _ & _ & _ & HW & _). rewrite <- HW, layout_workers_length, <- layout_shape_length, <- EG, E. cbn [length]. lia.
Qed.

Lemma C60_bits_proof : C60_bits_statement.
Proof.
  intros n world P L w f G Y x HG HB shape rounds.
  assert (HP : part_ok P) by apply HG. assert (HPs : pos_shape (p_shape P)) by apply HP.
  split.
  - intros value torch h Hh HK HT HY HI pre init eager g Hpre Hend idx v Hv.
    destruct (windowed_sizes world P L w _ _ _ G Y x HG HB HY) as (b & c & xs & ys & HO & Eo & Hc & Hn & Hl); [intros; lia|].
    rewrite Eo in HI.
    destruct (C60_windows_proof _ world P L w (by_function f) (fun c => c) value torch G x b c xs ys HG (function_local _ _ _ HK) Hc) as (_ & K); auto.
    { right. split; auto. exists (fun g r => r = h g). intros c0 c' g0 r. unfold by_function. now rewrite Hh. }
    destruct (K pre init eager g Hpre Hend) as (Y' & HY' & K1 & _). destruct (K1 idx v Hv) as (t & Et & Tt).
    fold shape in Et. rewrite Et. apply (block_same_bits _ _ _ Y Y'); auto; [apply Hv|]. exact (windowed_unique _ _ _ _ _ _ _ HY' HY).
  - intros cout use_bias dt rg torch weight bias HC Hcout HK Hs HT HY HI pre init eager g Hpre Hend idx v Hv.
    destruct (windowed_sizes world P L w _ _ _ G Y x HG HB HY) as (b & c & xs & ys & HO & Eo & Hc & Hn & Hl); [intros; lia|].
    rewrite Eo in HI.
    destruct (C60_convolutions_proof _ world P L w (by_function f) cout use_bias dt rg torch weight bias G x b c xs ys HG HC Hcout
      (function_local _ _ _ HK)) as (_ & K); auto.
    { destruct HO as [E _]. rewrite E in HT. exact HT. }
    destruct (K pre init eager g Hpre Hend) as (Y' & HY' & K1 & _). destruct (K1 idx v Hv) as (t & Et & Tt).
    fold shape in Et. rewrite Et. apply (block_same_bits _ _ _ Y Y'); auto; [apply Hv|]. exact (windowed_unique _ _ _ _ _ _ _ HY' HY).
Qed.

(** ** The torch layers of C30 *)

Definition C60_torch_layers_statement : Prop :=
  forall (R : CRing) (w : window) (f : @kernel R) (cout : Z -> Z) (value : R),
    window_ok (length (w_kernel w)) w -> kernel_local w f cout ->
    (forall c, computes (by_function f) cout value w c (torch_padded w f cout value) /\
               computes (by_function f) cout value (plain w) c (torch_sliding f cout w)) /\
    forall P shape x exchanged v,
      feature_output_by P w (fun _ => torch_sliding f cout w) shape x exchanged v = feature_output P w f cout shape x exchanged v.

Lemma C60_torch_layers_proof : C60_torch_layers_statement.
Proof.
  intros R w f cout value Hw HK. split; [intros c; split|].
  - intros e b xs ys HO. pose proof HO as (E & Hcnt & Hb & Hc & Hys & Lk).
    set (Y := mkt (b :: cout c :: ys) (fun i => match i with
      | b' :: c' :: o => f c c' (fun ch t => value_at e value (b' :: ch ::
             vec (length xs) (fun j => nth j (w_stride w) 0 * nth j o 0 - nth j (w_padding w) 0 + nth j (w_dilation w) 0 * nth j t 0)))
      | _ => rzero end) : tensor R).
    assert (HS : is_sequential f cout value w e Y) by (exists b, c, xs, ys; repeat (split; [auto|]); reflexivity).
    destruct (padded_serial f cout value w e Y e Hw HK HS) as (t & Et & [St Vt]); [rewrite E; cbn [length]; lia|apply teq_refl|].
    exists t. split; auto. exists b, c, xs, ys. split; auto. split; [exact St|]. intros b' c' o Ho. unfold by_function. rewrite Vt by auto. reflexivity.
  - intros e b xs ys HO. pose proof HO as (E & Hcnt & Hb & Hc & Hys & Lk). cbn [plain w_kernel] in Lk.
    assert (Ey : plain_out w xs = ys).
    { apply (nth_ext _ _ 0 0); [rewrite plain_out_length; symmetry; apply Hcnt|]. intros j Hj. rewrite plain_out_length in Hj.
      destruct Hcnt as [Lc Hcnt]. pose proof (Hcnt j Hj) as C. destruct (window_nth _ _ j Hw ltac:(lia)) as (A1 & A2 & A3 & A4).
      assert (Hn : 0 < nth j ys 0) by (rewrite Forall_forall in Hys; apply Hys, nth_In; lia).
      rewrite plain_out_nth by auto. cbn [plain w_kernel w_stride w_padding w_dilation] in C. rewrite nth_repeat in C.
      pose proof C as [_ C2]. pose proof (proj1 (C2 0 ltac:(lia)) Hn) as F. unfold window_fits in F.
      symmetry. apply (window_count_unique _ _ _ _ _ _ _ C). split; [unfold out_extent|intros o Ho; now apply out_extent_count].
      assert (0 <= (nth j xs 0 + 2 * 0 - nth j (w_dilation w) 0 * (nth j (w_kernel w) 0 - 1) - 1) / nth j (w_stride w) 0) by (apply Z.div_pos; lia). lia. }
    unfold torch_sliding. rewrite E. fold (plain_out w xs). rewrite Ey.
    assert (T : forallb (fun n => 0 <? n) ys = true).
    { apply forallb_forall. intros z Hz. rewrite Forall_forall in Hys. apply Z.ltb_lt. auto. }
    rewrite T. eexists. split; [reflexivity|]. exists b, c, xs, ys. split; auto. split; [reflexivity|]. cbn [tshape tat].
    intros b' c' o Ho. apply valid_index_cons in Ho as [Hb' Ho]. apply valid_index_cons in Ho as [Hc' Ho].
    unfold by_function. apply HK; auto. intros ch t Hch Ht. cbn [plain w_kernel w_stride w_padding w_dilation].
    pose proof (valid_index_length _ _ Ho) as Lo. pose proof (valid_index_length _ _ Ht) as Lt.
    assert (Ly : length ys = length xs) by apply Hcnt.
    replace (vec (length xs) _) with (window_point w o t).
    + unfold value_at. rewrite E. replace (inside _ _) with true; auto. symmetry. apply inside_spec.
      apply valid_index_cons. split; auto. apply valid_index_cons. split; auto. apply window_inside; auto. now rewrite Ey.
    + apply list_eq_nth with (d := 0); [rewrite vec_length, window_point_length by (auto; unfold nf; lia); unfold nf; lia|].
      intros j Hj. rewrite window_point_length in Hj by (auto; unfold nf; lia). unfold nf in Hj.
      rewrite vec_nth by lia. rewrite window_point_nth by (auto; unfold nf; lia). rewrite nth_repeat. lia.
  - reflexivity.
Qed.

Theorem C60_windows : C60_windows_statement.
Proof. exact C60_windows_proof. Qed.
Theorem C60_convolutions : C60_convolutions_statement.
Proof. exact C60_convolutions_proof. Qed.
Theorem C60_bits : C60_bits_statement.
Proof. exact C60_bits_proof. Qed.
Theorem C60_torch_layers : C60_torch_layers_statement.
Proof. exact C60_torch_layers_proof. Qed.

(** * Examples

    A pool that averages two 8-bit words at a time, dropping the remainder, with the
    partition and window of [C30_pooling_example]; even workers start from the left,
    odd workers from the right. *)
Definition wd (z : Z) : word_ring 8 := to_word 8 z.
Definition wd_avg (a b : word_ring 8) : word_ring 8 := wd ((@bits 8 a + @bits 8 b) / 2).
Definition wd_left (g : list Z -> word_ring 8) : word_ring 8 := wd_avg (wd_avg (g [0]) (g [1])) (g [2]).
Definition wd_right (g : list Z -> word_ring 8) : word_ring 8 := wd_avg (g [0]) (wd_avg (g [1]) (g [2])).
Definition wd_torch (v : Z) : tensor (word_ring 8) -> result (tensor (word_ring 8)) :=
  torch_sliding (pool_kernel (if Z.even v then wd_left else wd_right)) (fun c => c) pl_w.
Definition wd_Q : @window_relation (word_ring 8) := fun _ c' g r => r = wd_left (g c') \/ r = wd_right (g c').
Definition wd_G : tensor (word_ring 8) := mkt [2; 3; 14] (fun i => wd (91 * nth 0 i 0 + 17 * nth 1 i 0 + 37 * nth 2 i 0)).
Definition wd_x (v : Z) : tensor (word_ring 8) := block pl_L [0; v / 4; v mod 4] wd_G.
Definition wd_shape (v : Z) : list Z := tshape (wd_x v).
Definition wd_arg := halo_argument pl_P pl_w (wd 255) wd_shape wd_x.
Definition wd_plan := halo_plan pl_P pl_w wd_shape.
Definition wd_none : tensor (word_ring 8) := mkt [] (fun _ => wd 0).
Definition wd_run (v : Z) : tensor (word_ring 8) :=
  last (h_hist (sync_rounds (history_rounds pl_P (fun v => tshape (wd_arg v)) (fun v => u_recv (wd_plan v))
                               (fun v => u_send (wd_plan v)) [HForward wd_arg]) (fun _ => mkhst wd_none wd_none wd_none []) v)) wd_none.
Definition wd_seq (f : (list Z -> word_ring 8) -> word_ring 8) : tensor (word_ring 8) :=
  mkt [2; 3; 7] (fun i => match i with
    | b' :: c' :: o => f (fun t => value_at wd_G (wd 255) (b' :: c' :: [2 * nth 0 o 0 - 1 + nth 0 t 0]))
    | _ => rzero end).
Definition wd_bits (t : tensor (word_ring 8)) (l : list (list Z)) : list Z := map (fun i => @bits 8 (tat t i)) l.

Lemma wd_local h : h = wd_left \/ h = wd_right -> kernel_local pl_w (pool_kernel h) (fun c => c).
Proof.
  intros H. apply C30_pooling_kernels. intros g g' E.
  assert (g [0] = g' [0] /\ g [1] = g' [1] /\ g [2] = g' [2]) as (A & B & C).
  { repeat split; apply E; repeat constructor; cbn; lia. }
  destruct H as [-> | ->]; unfold wd_left, wd_right; congruence.
Qed.

Lemma pl_given : feature_given pl_P.(p_ranks) pl_P pl_L pl_w.
Proof. exact (proj1 C30_pooling_example). Qed.

Example C60_windows_example :
  feature_given pl_P.(p_ranks) pl_P pl_L pl_w /\ relation_local pl_w wd_Q (fun c => c) /\ relation_per_channel wd_Q (fun c => c) /\
  (forall v c, In v pl_P.(p_ranks) -> computes wd_Q (fun c => c) (wd 255) (plain pl_w) c (wd_torch v)) /\
  has_output pl_w wd_G 2 3 [14] [7] /\ holds_blocks pl_P pl_L wd_G wd_x /\ within pl_L pl_w [2; 3; 7] /\
  (* workers 4 and 5 *)
  map (fun v => wd_bits (val (feature_output_by pl_P pl_w wd_torch wd_shape wd_x wd_run v)) [[0; 0; 0]; [0; 0; 1]]) [4; 5] =
    [wd_bits (wd_seq wd_left) [[0; 2; 0]; [0; 2; 1]]; wd_bits (wd_seq wd_right) [[0; 2; 2]; [0; 2; 3]]] /\
  wd_bits (wd_seq wd_left) [[0; 2; 0]; [0; 2; 1]; [0; 2; 2]; [0; 2; 3]] <> wd_bits (wd_seq wd_right) [[0; 2; 0]; [0; 2; 1]; [0; 2; 2]; [0; 2; 3]].
Proof.
  split; [exact pl_given|]. split.
  { intros c c' g g' r E Hc. assert (g c' [0] = g' c' [0] /\ g c' [1] = g' c' [1] /\ g c' [2] = g' c' [2]) as (A & B & C).
    { repeat split; apply E; auto; repeat constructor; cbn; lia. }
    unfold wd_Q, wd_left, wd_right. now rewrite A, B, C. }
  split.
  { split; auto. exists (fun g r => r = wd_left g \/ r = wd_right g). reflexivity. }
  split.
  { intros v c _ e b xs ys HO. unfold wd_torch. set (h := if Z.even v then wd_left else wd_right).
    assert (Hh : h = wd_left \/ h = wd_right) by (unfold h; destruct (Z.even v); auto).
    destruct (C60_torch_layers_proof (word_ring 8) pl_w (pool_kernel h) (fun c => c) (wd 255)) as (K & _).
    - apply pl_given.
    - now apply wd_local.
    - destruct (proj2 (K c) e b xs ys HO) as (y & Ey & b2 & c2 & xs2 & ys2 & HO2 & Sy & Vy). exists y. split; auto.
      exists b2, c2, xs2, ys2. split; auto. split; auto. intros b' c' o Ho. rewrite (Vy b' c' o Ho). unfold wd_Q, pool_kernel.
      destruct Hh as [-> | ->]; auto. }
  split.
  { split; [reflexivity|]. split.
    { split; [reflexivity|]. intros [|j] Hj; cbn in Hj; [|lia]. cbn. split; [lia|]. unfold window_fits. intros. lia. }
    split; [lia|]. split; [lia|]. split; [repeat constructor|]. reflexivity. }
  split.
  { split; [reflexivity|]. intros idx v [Hi Hv].
    inversion Hi as [|? a ? t Ha Ht]; subst. inversion Ht as [|? b ? t' Hb Ht']; subst.
    inversion Ht' as [|? c ? t'' Hc Ht'']; subst. inversion Ht''; subst.
    assert (a = 0) by lia; subst. assert (b = 0 \/ b = 1) as [-> | ->] by lia;
    assert (c = 0 \/ c = 1 \/ c = 2 \/ c = 3) as [-> |[-> |[-> | ->]]] by lia; cbn in Hv; inv Hv; apply teq_refl. }
  split; [apply C30_pooling_example|]. split; [vm_compute; reflexivity|vm_compute; discriminate].
Qed.

(** The same pool, from the left on all workers. *)
Example C60_bits_example :
  feature_given pl_P.(p_ranks) pl_P pl_L pl_w /\ holds_blocks pl_P pl_L wd_G wd_x /\
  kernel_local pl_w (pool_kernel wd_left) (fun c => c) /\
  (forall c, computes (by_function (pool_kernel wd_left)) (fun c => c) (wd 255) (plain pl_w) c (wd_torch 0)) /\
  is_windowed (by_function (pool_kernel wd_left)) (fun c => c) (wd 255) pl_w wd_G (wd_seq wd_left) /\
  within pl_L pl_w (out_counts wd_G (wd_seq wd_left)) /\
  wd_bits (val (feature_output_by pl_P pl_w (fun _ => wd_torch 0) wd_shape wd_x wd_run 5)) (indices [2; 1; 2]) =
  wd_bits (wd_seq wd_left) [[0; 2; 2]; [0; 2; 3]; [1; 2; 2]; [1; 2; 3]].
Proof.
  destruct C60_windows_example as (A & _ & _ & _ & O & B & W & _). split; auto. split; auto.
  split; [apply wd_local; auto|]. split.
  { intros c. apply C60_torch_layers_proof; [apply pl_given|apply wd_local; auto]. }
  split.
  { exists 2, 3, [14], [7]. split; auto. split; [reflexivity|]. reflexivity. }
  split; [exact W|]. vm_compute; reflexivity.
Qed.

(** The convolution of [C30_convolutions_example] with sums that are rounded down to
    multiples of 16 from 256 on; worker 11 adds in the opposite order. *)
Definition rd_add (a b : Z) : Z := if a + b <? 256 then a + b else 16 * ((a + b) / 16).
Definition rd_f (back : bool) (wt : tensor Zring) (b : option (tensor Zring)) : @kernel Zring := fun c c' g =>
  let l := flat_map (fun j => map (fun t => tat wt (c' :: j :: t) * g j t) (indices [3])) (zrange c) in
  rd_add (fold_left rd_add (if back then rev l else l) 0) (match b with Some b => tat b [c'] | None => 0 end).
Definition rd_torch (v : Z) (w : window) (wt : tensor Zring) (b : option (tensor Zring)) : tensor Zring -> result (tensor Zring) :=
  torch_padded w (rd_f (v =? 11) wt b) (fun _ => 2) (0 : car Zring).
Definition rd_Q : @window_relation Zring := fun c c' g r =>
  exists back, r = rd_f back (cv_weight 10) (Some (cv_bias 10)) c c' g.
Definition rd_out (v : Z) : result (tensor Zring) :=
  conv_forward_by cv_P cv_w true (fun _ => 0) (fun _ => true) rd_torch cv_weight cv_bias cv_shape cv_x cv_run v.

Example C60_convolutions_example :
  feature_given cv_world cv_P cv_L cv_w /\ nth 1 (p_shape cv_P) 0 = 1 /\ relation_local cv_w rd_Q (fun _ => 2) /\
  (forall v, In v (p_ranks cv_P) -> nonneg_shape (tshape (cv_weight v)) /\ nonneg_shape (tshape (cv_bias v))) /\
  (forall v w' wt b', In v (p_ranks cv_P) -> w' = cv_w \/ w' = plain cv_w ->
     teq wt (cv_weight (hd 0 (p_ranks cv_P))) -> same_bias b' (Some (cv_bias (hd 0 (p_ranks cv_P)))) ->
     computes rd_Q (fun _ => 2) (0 : car Zring) w' 2 (rd_torch v w' wt b')) /\
  has_output cv_w cv_G 1 2 [10] [10] /\ holds_blocks cv_P cv_L cv_G cv_x /\ within cv_L cv_w [1; 2; 10] /\
  map (fun v => tshape (val (rd_out v))) [9; 10; 11; 12] = [[5]; [1; 2; 4]; [1; 2; 3]; [1; 2; 3]] /\
  map (tat (val (rd_out 11))) (indices [1; 2; 3]) = [448; 544; 640; 1232; 1456; 1680] /\
  map (fun back => map (fun o => rd_f back (cv_weight 10) (Some (cv_bias 10)) 2 0 (fun ch t => value_at cv_G 0 [0; ch; o - 1 + nth 0 t 0])) [4; 5; 6])
    [false; true] = [[480; 560; 656]; [448; 544; 640]].
Proof.
  destruct C30_convolutions_example as (A & B & C & D & E & _ & F & _). split; auto. split; auto.
  assert (HLo : forall back wt b, kernel_local cv_w (rd_f back wt b) (fun _ => 2)).
  { intros back wt b c c' g g' Eg Hc. unfold rd_f. f_equal.
    replace (flat_map (fun j => map (fun t => tat wt (c' :: j :: t) * g' j t) (indices [3])) (zrange c))
      with (flat_map (fun j => map (fun t => tat wt (c' :: j :: t) * g j t) (indices [3])) (zrange c)); auto.
    rewrite !flat_map_concat_map. f_equal. apply map_ext_in. intros j Hj. apply in_zrange in Hj. apply map_ext_in. intros t Ht.
    apply in_indices in Ht. f_equal. now apply Eg. }
  split.
  { intros c c' g g' r Eg Hc (back & ->). exists back. now apply HLo. }
  split; [intros v Hv; now apply C|]. split.
  { intros v w' wt b' Hv Hw' Tw Tb e b xs ys HO. unfold rd_torch. set (back := v =? 11).
    assert (Hw : window_ok (length (w_kernel w')) w') by (destruct Hw' as [-> | ->]; repeat split; repeat constructor; cbn; lia).
    assert (Hk : w_kernel w' = [3]) by (destruct Hw' as [-> | ->]; reflexivity).
    destruct (C60_torch_layers_proof Zring w' (rd_f back wt b') (fun _ => 2) (0 : car Zring)) as [K _]; auto.
    { intros c c' g g' Eg Hc. apply (HLo back wt b' c c' g g'); auto. intros ch t Hch Ht. apply Eg; auto. now rewrite Hk. }
    destruct (proj1 (K 2) e b xs ys HO) as (y & Ey & b2 & c2 & xs2 & ys2 & HO2 & Sy & Vy). exists y. split; auto.
    exists b2, c2, xs2, ys2. split; auto. split; auto. intros b1 c1 o Ho. rewrite (Vy b1 c1 o Ho). exists back.
    assert (c2 = 2) as -> by (destruct HO as [E1 _]; destruct HO2 as [E2 _]; congruence).
    rewrite Sy in Ho. apply valid_index_cons in Ho as [_ Ho]. apply valid_index_cons in Ho as [Hc1 _].
    destruct Tw as [Tw Vw]. destruct b' as [b'|]; [|destruct Tb]. destruct Tb as [Tb Vb]. unfold rd_f. f_equal.
    - match goal with |- fold_left _ (if _ then rev ?l else ?l) _ = fold_left _ (if _ then rev ?l' else ?l') _ => replace l' with l; auto end.
      rewrite !flat_map_concat_map. f_equal. apply map_ext_in. intros j Hj. apply in_zrange in Hj. apply map_ext_in. intros t Ht.
      apply in_indices in Ht. f_equal. apply Vw. rewrite Tw. repeat (apply valid_index_cons; split; auto).
    - apply Vb. rewrite Tb. repeat (apply valid_index_cons; split; auto). constructor. }
  split.
  { split; [reflexivity|]. split.
    { split; [reflexivity|]. intros [|j] Hj; cbn in Hj; [|lia]. cbn. split; [lia|]. unfold window_fits. intros. lia. }
    split; [lia|]. split; [lia|]. split; [repeat constructor|]. reflexivity. }
  split; [exact E|]. split; [exact F|]. repeat split; vm_compute; reflexivity.
Qed.

Print Assumptions C60_windows.
Print Assumptions C60_convolutions.
Print Assumptions C60_bits.
Print Assumptions C60_torch_layers.
