(** Sliding-window layers in machine arithmetic: C84. *)

From Coq Require Import Sorting.Permutation.
From Verif Require Import Prelude SpecIndex SpecLayout SpecPartition SpecHalo SpecSum ModelSlicing ModelDecomposition
  ModelPartition ProofSlicing ProofDecomposition ProofPartition PropPartition Ring Tensor ModelCollectives ProofCollectives PropCollectives
  Blocks ModelUtilities P2P Rounds Schedule ModelRepartition ProofRepartition PropRepartition ModelHaloMixin ProofHaloMixin
  PropHaloMixin ModelHaloExchange PropHaloExchange ModelFeatureLayer SpecFeature ProofFeatureLayer
  PropFeatureLayer PropFeatureConv PropFeatureCommon ModelConv ProofConv ProofConvParts PropLinear PropConv
  PropConvGeneral ModelGradients ProofGradients ModelFeatureGrad SpecFeatureGrad ProofFeatureGrad PropFeatureGrad PropMaxPoolGrad ModelTorch SpecWindow PropWindow
  PropConvGrad ModelReduce ProofReduce PropReduce SpecConvSum ModelConvReduce ProofConvReduce PropConvReduce
  ProofTransfer ProofHaloLinks ModelHaloReduce ProofHaloForward PropHaloReduce PropFeatureReduce.
Local Open Scope Z_scope.

(** C60, where the backward passes of earlier calls add in machine arithmetic. *)
Definition C84_windows_statement : Prop :=
  forall (R : CRing) (M : machine R) (world : list Z) (P : part) (L : layout) (w : window)
    (Q : @window_relation R) (cout : Z -> Z) (value : R) (torch : Z -> tensor R -> result (tensor R))
    (G : tensor R) (x : Z -> tensor R) (b c : Z) (xs ys : list Z),
    feature_given world P L w ->
    relation_local w Q cout -> 0 <= cout c -> nth 1 (p_shape P) 0 = 1 \/ relation_per_channel Q cout ->
    (forall v c', In v (p_ranks P) -> 0 < c' -> (nth 1 (p_shape P) 0 = 1 -> c' = c) -> computes Q cout value (plain w) c' (torch v)) ->
    has_output w G b c xs ys -> holds_blocks P L G x -> within L w (b :: c :: ys) ->
    let shape v := tshape (x v) in
    let arg := halo_argument P w value shape x in
    let plan := halo_plan P w shape in
    let layer := history_rounds_by P (fun v => tshape (arg v)) (fun v => u_recv (plan v)) (fun v => u_send (plan v)) (m_add M) in
    (forall v, In v world -> halo_input P w value shape x v = Ok (arg v)) /\
    halo_safe_by M world P (fun v => tshape (arg v)) (fun v => u_recv (plan v)) (fun v => u_send (plan v)) /\
    forall pre init eager g, same_calls P arg pre -> ends world (layer (pre ++ [HForward arg])) init eager g ->
      exists Y, is_windowed Q cout value w G Y /\
        (forall idx v, worker_at P idx v ->
           exists t, feature_output_by P w torch shape x (halo_result g) v = Ok t /\
                     teq t (block (balanced (tshape Y) (p_shape P)) idx Y)) /\
        (forall v, In v world -> ~ In v (p_ranks P) -> feature_output_by P w torch shape x (halo_result g) v = Ok (x v)).

(** torch's convolution on every worker, with its padding and without. *)
Definition torch_windows_by {R : CRing} (M : machine R) (w : window) (groups : Z)
    (torch : Z -> window -> tensor R -> option (tensor R) -> tensor R -> result (tensor R)) : Prop :=
  forall v w', w' = w \/ w' = bare w -> forall cin cout X W bias b xs ys, conv_arguments w' groups cin cout X W bias b xs ys ->
  exists Y, torch v w' W bias X = Ok Y /\ conv_by M w' groups cin cout X W bias b ys Y.

(** What a feature-distributed convolution delivers: blocks of one tensor. *)
Definition blocks_delivered {R : CRing} (world : list Z) (P : part) (x : Z -> tensor R) (Y : tensor R) (y : Z -> result (tensor R)) : Prop :=
  (forall idx v, worker_at P idx v -> exists t, y v = Ok t /\ teq t (block (balanced (tshape Y) (p_shape P)) idx Y)) /\
  (forall v, In v world -> ~ In v (p_ranks P) -> y v = Ok (x v)).

(** The outputs are the blocks of a tensor each of whose entries is a sum of exactly the
    products of the sequential layer with the first worker's weight, and its bias, each
    once; products with padding may be missing. *)
Definition C84_convolutions_statement : Prop :=
  forall (R : CRing) (M : machine R) torch (world : list Z) (P : part) (L : layout) (w : window)
    (cin cout groups : Z) (use_bias : bool) (dt : Z -> Z) (rg : Z -> bool) (weight bias : Z -> tensor R) (X : tensor R)
    (b : Z) (xs ys : list Z) (x : Z -> tensor R),
    let root := hd 0 (p_ranks P) in
    let bo := if use_bias then Some (bias root) else None in
    torch_windows_by M w groups torch ->
    feature_given world P L w -> nth 1 (p_shape P) 0 = 1 ->
    conv_parameters P w cin cout groups use_bias weight bias ->
    conv_arguments w groups cin cout X (weight root) bo b xs ys ->
    holds_blocks P L X x -> ((1 < length (p_ranks P))%nat -> within L w (b :: cin :: ys)) ->
    let shape v := tshape (x v) in
    let arg := halo_argument P w rzero shape x in
    let plan := halo_plan P w shape in
    let layer := history_rounds_by P (fun v => tshape (arg v)) (fun v => u_recv (plan v)) (fun v => u_send (plan v)) (m_add M) in
    let delivered exchanged := exists Y, conv_by M w groups cin cout X (weight root) bo b ys Y /\
      blocks_delivered world P x Y (conv_forward_by P w use_bias dt rg torch weight bias shape x exchanged) in
    (* a single worker has no halo layer *)
    (length (p_ranks P) = 1%nat -> forall exchanged, delivered exchanged) /\
    ((1 < length (p_ranks P))%nat ->
       forall pre init eager g, same_calls P arg pre -> ends world (layer (pre ++ [HForward arg])) init eager g -> delivered (halo_result g)).

(** ** Proofs *)

Lemma shows_steq {R : CRing} P w b c xs ys idx (e e' : tensor R) value X :
  steq e e' -> shows P w b c xs ys idx e' value X -> shows P w b c xs ys idx e value X.
Proof.
  intros [S V] (b0 & c0 & xs0 & E0 & E1 & K). exists b0, c0, xs0. split; [congruence|]. split; [exact E1|].
  intros. rewrite V. now apply K.
Qed.

Lemma C84_windows_proof : C84_windows_statement.
Proof.
  intros R M world P L w Q cout value torch G x b c xs ys HG HL Hc HC HT HO HB HI shape arg plan layer.
  assert (HS : forall idx v, worker_at P idx v -> shape v = block_shape L idx).
  { intros idx v Hv. destruct HB as [_ Hx]. exact (proj1 (Hx idx v Hv)). }
  assert (HPl : planned P (pad_layout L (0 :: 0 :: w_padding w)) (feature_halos L w) (fun v => tshape (arg v)) (fun v => u_recv (plan v)) (fun v => u_send (plan v)))
    by exact (g_planned world P L w value G x HG 0 0 [] HB).
  pose proof (fg_given world P L w HG shape HS) as HH.
  split; [exact (proj1 (halo_started world P L w value G x HG HB))|].
  split; [intros calls init eager; exact (C76_safe R M world P _ _ _ _ _ calls init eager HH HPl)|].
  intros pre init eager g Hpre Hend.
  pose proof HO as (EG & Hcnt & Hb & Hc0 & Hys & _).
  assert (HP : part_ok P) by apply HG. assert (HE : layout_shape L = b :: c :: xs) by (rewrite <- EG; symmetry; apply HB).
  pose proof (g_calls world P L w value G x HG 0 0 [] HB pre Hpre) as Cl.
  destruct (forward_after (m_add M) world P _ _ _ _ _ HH HPl pre arg init eager g Hend) as (g' & Hg' & Eg).
  set (out := b :: cout c :: ys). set (out_of := fun v => feature_output_by P w torch shape x (halo_result g) v).
  assert (HW : forall idx v, worker_at P idx v -> exists y, out_of v = Ok y /\ tshape y = block_shape (balanced out (p_shape P)) idx /\
    forall p b1 c1 o1, valid_index (tshape y) p -> vadd (block_lo (balanced out (p_shape P)) idx) p = b1 :: c1 :: o1 ->
        Q c c1 (fun ch t => value_at G value (b1 :: ch :: seen_point (length xs) w o1 t)) (tat y p)).
  { intros idx v Hv.
    pose proof (windows_seen world P L w HG b c xs ys Hcnt Hb Hc0 Hys HI _ _ _ HPl value G x pre init eager g' idx v EG HB Cl Hg' Hv) as Sh.
    assert (Hvw : In v world) by (destruct HH as (_ & HH & _); apply HH, (worker_at_In _ _ _ Hv)).
    assert (Sh' : shows P w b c xs ys idx (local_in L w idx (halo_result g v)) value G).
    { eapply shows_steq; [|exact Sh]. specialize (Eg v Hvw). unfold local_in, slice_tensor. rewrite (proj1 Eg). now apply read_proper. }
    destruct (wn_worker world P L w HG Q cout value G b c xs ys HL HO HE HI (torch v) idx v _ Hc HC (fun c' => HT v c' (worker_at_In _ _ _ Hv)) Hv Sh')
      as (y & Ey & Sy & Vy).
    exists y. split; auto. unfold out_of, feature_output_by. rewrite (fg_setup world P L w HG shape HS idx v Hv). exact Ey. }
  destruct (wn_shape world P L w HG G b c xs ys HO HE) as (p0 & p1 & ps & EP & Lp & _).
  assert (Ll : length out = length (p_shape P)) by (rewrite EP; unfold out; cbn [length]; lia).
  assert (Nn : nonneg_shape out).
  { unfold out. constructor; [lia|]. constructor; [lia|]. eapply Forall_impl; [|exact Hys]. cbn. lia. }
  assert (HPs : pos_shape (p_shape P)) by apply HP.
  pose proof (balanced_ok out (p_shape P) HPs Nn) as Ok1. pose proof (balanced_workers out (p_shape P) HPs Ll) as Ok2.
  pose proof (balanced_shape out (p_shape P) HPs Nn Ll) as Ok3.
  set (Y := glue (balanced out (p_shape P)) (fun idx => val (out_of (wk P idx)))).
  assert (SY : tshape Y = out) by exact Ok3.
  exists Y. split; [|split].
  - exists b, c, xs, ys. split; [auto|]. split; [exact SY|]. intros b1 c1 o1 Hi. rewrite SY, <- Ok3 in Hi.
    destruct (layout_tiles_exists _ _ Ok1 Hi) as (idx & Hidx & Hbox).
    destruct (local_point _ idx _ Hidx Hbox) as [Hp Ev].
    unfold Y. cbn [glue tat]. rewrite (owner_unique _ Ok1 _ idx Hidx Hbox).
    rewrite Ok2 in Hidx. pose proof (wk_worker P idx HP Hidx) as Hv. destruct (HW idx _ Hv) as (y & -> & Sy & Vy). cbn [val].
    apply Vy; auto. now rewrite Sy.
  - intros idx v Hv. destruct (HW idx v Hv) as (y & Ey & Sy & _). exists y. split; [exact Ey|]. rewrite SY.
    pose proof (glue_block _ Ok1 (fun idx => val (out_of (wk P idx))) idx) as T. fold Y in T.
    cbv beta in T. rewrite (worker_wk _ _ _ Hv), Ey in T. cbn [val] in T. apply T; auto. rewrite Ok2. apply Hv.
  - intros v _ Hv. unfold out_of, feature_output_by. pose proof (fg_inactive P w shape v Hv) as E. rewrite E. reflexivity.
Qed.

Lemma kept_required {R : CRing} (l : list (bool * term R)) l' : (forall m t, In (m, t) l -> m = false) -> kept l l' -> l' = map snd l.
Proof.
  intros H K. induction K as [|m t l l' K IH|t l l' K IH]; cbn [map snd]; auto.
  - rewrite IH; auto. intros m' t' Hin. eapply H. right. exact Hin.
  - specialize (H true t (or_introl eq_refl)). discriminate.
Qed.

Section Sums.
  Context {R : CRing}.
  Variables (M : machine R) (w : window) (groups cout : Z) (W : tensor R) (bo : option (tensor R)).
  Hypothesis HG0 : 0 < groups.
  Hypothesis Hgc : (groups | cout).
  Hypothesis Hc0 : 0 < cout.
  Hypothesis Hw : window_ok (length (w_kernel w)) w.

  Definition window_terms (c c' : Z) (g : Z -> list Z -> R) : list (term R) :=
    flat_map (fun k => map (fun t => Prod (g (c' / (cout / groups) * (c / groups) + k) t) (tat W (c' :: k :: t))) (indices (w_kernel w)))
      (zrange (c / groups)) ++ match bo with Some v => [Num (tat v [c'])] | None => [] end.
  Definition conv_sums : window_relation := fun c c' g r => evaluates M (window_terms c c' g) r.

  Lemma channel_range c c' k : 0 <= c' < cout -> 0 <= k < c / groups -> 0 <= c' / (cout / groups) * (c / groups) + k < c.
  Proof.
    intros Hc Hk. destruct Hgc as [q Hq]. assert (Eq : cout / groups = q) by (rewrite Hq; apply Z.div_mul; lia).
    assert (0 < q) by nia. rewrite Eq. assert (0 <= c' / q) by (apply Z.div_pos; lia).
    assert (c' / q < groups) by (apply Z.div_lt_upper_bound; nia).
    pose proof (Z.mul_div_le c groups ltac:(lia)). nia.
  Qed.

  Lemma sums_local : relation_local w conv_sums (fun _ => cout).
  Proof.
    intros c c' g g' r Hg Hc. unfold conv_sums. replace (window_terms c c' g') with (window_terms c c' g); auto.
    unfold window_terms. f_equal. rewrite !flat_map_concat_map. f_equal. apply map_ext_in. intros k Hk. apply in_zrange in Hk. apply map_ext_in. intros t Ht. apply in_indices in Ht.
    f_equal. apply Hg; auto. now apply channel_range.
  Qed.

  Lemma sums_terms X b c xs b' c' o : tshape X = b :: c :: xs -> length xs = length (w_kernel w) ->
    map snd (conv_terms w groups c cout X W bo b' c' o) =
    window_terms c c' (fun ch t => value_at X rzero (b' :: ch ::
      vec (length xs) (fun j => nth j (w_stride w) 0 * nth j o 0 - nth j (w_padding w) 0 + nth j (w_dilation w) 0 * nth j t 0))) .
  Proof.
    intros EX Lx. unfold conv_terms, window_terms. rewrite map_app. f_equal; [|now destruct bo].
    rewrite Lx. induction (zrange (c / groups)) as [|k l IH]; [reflexivity|]. cbn [flat_map]. rewrite map_app, IH. f_equal.
    rewrite map_map. reflexivity.
  Qed.

  Lemma windowed_sums X Y b c xs ys : has_output w X b c xs ys -> is_windowed conv_sums (fun _ => cout) rzero w X Y ->
    conv_by M w groups c cout X W bo b ys Y.
  Proof.
    intros (E & Hcnt & _ & _ & _ & Lx) (b1 & c1 & xs1 & ys1 & (E1 & Hcnt1 & _) & SY & VY). rewrite E in E1. injection E1 as <- <- <-.
    assert (ys1 = ys) as ->.
    { destruct Hcnt as [A1 A2], Hcnt1 as [B1 B2]. apply (nth_ext _ _ 0 0); [congruence|]. intros j Hj. rewrite B1 in Hj.
      exact (window_count_unique _ _ _ _ _ _ _ (B2 j Hj) (A2 j Hj)). }
    split; [exact SY|]. intros b' c' o Ho. exists (map snd (conv_terms w groups c cout X W bo b' c' o)). split; [apply kept_all|].
    rewrite (sums_terms X b c xs b' c' o E Lx). exact (VY b' c' o Ho).
  Qed.

  Lemma bare_counts xs ys : length xs = length (w_kernel w) -> counts xs (bare w) ys -> Forall (fun n => 0 < n) ys -> nonneg_shape xs.
  Proof.
    intros Lx [Ly Hy] Py. apply Forall_forall. intros n Hn. destruct (In_nth _ _ 0 Hn) as (j & Hj & <-).
    pose proof (window_nth _ _ j Hw ltac:(lia)) as (Hk & Hs & _ & Hd).
    assert (0 < nth j ys 0) as Hn0 by (rewrite Forall_forall in Py; apply Py, nth_In; lia).
    apply (proj2 (Hy j Hj)) in Hn0; [|lia]. unfold window_fits in Hn0. cbn [bare w_kernel w_stride w_padding w_dilation] in Hn0.
    rewrite nth_repeat in Hn0. nia.
  Qed.

  Lemma bare_inside xs ys o t : length xs = length (w_kernel w) -> counts xs (bare w) ys -> valid_index ys o -> valid_index (w_kernel w) t ->
    valid_index xs (window_at (bare w) o t).
  Proof.
    intros Lx [Ly Hy] Ho Ht. apply valid_index_nth in Ho as [Lo Ho]. apply valid_index_nth in Ht as [Lt Ht]. apply valid_index_nth.
    unfold window_at. cbn [bare w_kernel w_stride w_padding w_dilation]. rewrite vec_length. split; [auto|]. intros j Hj.
    rewrite vec_nth by lia. rewrite nth_repeat.
    pose proof (window_nth _ _ j Hw ltac:(lia)) as (Hk & Hs & _ & Hd).
    pose proof (Ho j ltac:(lia)) as Hoj. pose proof (Ht j ltac:(lia)) as Htj.
    assert (window_fits (nth j xs 0) (nth j (w_kernel w) 0) (nth j (w_stride w) 0) 0 (nth j (w_dilation w) 0) (nth j o 0)) as F.
    { pose proof (proj1 (proj2 (Hy j Hj) (nth j o 0) ltac:(lia)) ltac:(lia)) as F.
      cbn [bare w_kernel w_stride w_padding w_dilation] in F. now rewrite nth_repeat in F. }
    unfold window_fits in F. nia.
  Qed.

  Lemma sums_computed torch v c wt b' : torch_windows_by M w groups torch -> (groups | c) ->
    tshape W = cout :: c / groups :: w_kernel w -> match bo with Some v => tshape v = [cout] | None => True end ->
    teq wt W -> same_bias b' bo -> computes conv_sums (fun _ => cout) rzero (plain w) c (torch v (plain w) wt b').
  Proof.
    intros HT Hgi SW Sb Tw Tb e b xs ys HO. pose proof HO as (E & Hcnt & Hb & Hc & Hys & Lx). change (plain w) with (bare w) in *.
    cbn [bare w_kernel] in Lx. pose proof (bare_counts xs ys Lx Hcnt Hys) as Nx.
    destruct (HT v (bare w) (or_intror eq_refl) c cout e wt b' b xs ys) as (Y & EY & SY & VY).
    { do 6 (split; [assumption|]). split; [exact E|]. split; [exact Lx|]. split; [exact Nx|]. split; [exact Hcnt|]. split; [exact Hys|].
      split; [destruct Tw as [-> _]; exact SW|]. destruct b' as [b'|], bo as [b0|]; cbn in Tb; auto; try contradiction. destruct Tb as [-> _]. exact Sb. }
    exists Y. split; [exact EY|]. exists b, c, xs, ys. split; [exact HO|]. split; [exact SY|]. intros b1 c1 o Ho.
    destruct (VY b1 c1 o Ho) as (l' & Kl & El). rewrite SY in Ho. apply valid_index_cons in Ho as [Hb1 Ho]. apply valid_index_cons in Ho as [Hc1 Ho].
    apply kept_required in Kl.
    - subst l'. unfold conv_sums. match goal with |- evaluates M ?a _ => enough (Eq : map snd (conv_terms (bare w) groups c cout e wt b' b1 c1 o) = a) by (rewrite <- Eq; exact El) end.
      unfold conv_terms, window_terms. rewrite map_app. f_equal.
      + rewrite !flat_map_concat_map, concat_map, map_map. f_equal. apply map_ext_in. intros k Hk. apply in_zrange in Hk. rewrite map_map.
        apply map_ext_in. intros t Ht. apply in_indices in Ht. cbn [snd]. unfold window_at. cbn [bare w_kernel w_stride w_padding w_dilation].
        rewrite Lx. f_equal. apply Tw. destruct Tw as [-> _]. rewrite SW. now repeat (apply valid_index_cons; split; [assumption|]).
      + destruct b' as [b'|], bo as [b0|]; cbn in Tb; auto; try contradiction. cbn [map snd]. do 2 f_equal. destruct Tb as [T1 T2]. apply T2. rewrite T1, Sb.
        apply valid_index_cons. split; [assumption|constructor].
    - intros m t Hin. unfold conv_terms in Hin. apply in_app_or in Hin as [Hin|Hin].
      + apply in_flat_map in Hin as (k & Hk & Hin). apply in_zrange in Hk. apply in_map_iff in Hin as (t' & Et & Ht). apply in_indices in Ht.
        injection Et as <- _. apply negb_false_iff. apply inside_spec. rewrite E. apply valid_index_cons. split; [exact Hb1|]. apply valid_index_cons.
        split; [now apply channel_range|]. now apply (bare_inside xs ys).
      + destruct b'; [|destruct Hin]. destruct Hin as [Hin|[]]. now injection Hin as <- _.
  Qed.
End Sums.

Lemma conv_by_teq {R : CRing} (M : machine R) w groups cin cout (x X W : tensor R) bo b ys Y : teq x X ->
  conv_by M w groups cin cout x W bo b ys Y -> conv_by M w groups cin cout X W bo b ys Y.
Proof.
  intros T [SY VY]. split; [exact SY|]. intros b' c' o Ho. destruct (VY b' c' o Ho) as (l & Kl & El). exists l. split; [|exact El].
  replace (conv_terms w groups cin cout X W bo b' c' o) with (conv_terms w groups cin cout x W bo b' c' o); [exact Kl|].
  unfold conv_terms. f_equal. apply flat_map_ext. intros k. apply map_ext. intros t. rewrite (value_at_teq x X rzero _ T). now destruct T as [-> _].
Qed.

Lemma C84_convolutions_proof : C84_convolutions_statement.
Proof.
  intros R M torch world P L w cin cout groups use_bias dt rg weight bias X b xs ys x root bo HT HG HC HPar HA HB Hin shape arg plan layer delivered.
  pose proof HA as (Hg0 & Hgi & Hgc & Hci & Hco & Hb & EX & Lx & Nx & Hcnt & Hys & SW & Sb).
  assert (HP : part_ok P) by apply HG.
  assert (Hin0 : forall exchanged v, In v world -> ~ In v (p_ranks P) ->
     conv_forward_by P w use_bias dt rg torch weight bias shape x exchanged v = Ok (x v)).
  { intros exchanged v _ Hv. unfold conv_forward_by. apply is_active_false in Hv. now rewrite Hv. }
  split.
  - intros E1 exchanged.
    destruct (p_ranks P) as [|v0 [|]] eqn:Er; try discriminate. cbn [hd] in root. subst root.
    assert (Hones : p_shape P = repeat 1 (length L)).
    { destruct HG as (_ & _ & (_ & _ & Hp & Hz) & _ & HW & _). rewrite Er in Hz. cbn [length] in Hz.
      rewrite <- (layout_workers_length L), HW. clear - Hp Hz. induction Hp as [|n l Hn Hp IH]; [reflexivity|].
      cbn [zprod fold_right] in Hz. fold (zprod l) in Hz. pose proof (zprod_pos _ Hp).
      assert (n = 1) by nia. subst n. cbn [length repeat]. f_equal. apply IH. lia. }
    assert (H1 : Forall (fun n => n = 1) (p_shape P)).
    { rewrite Hones. apply Forall_forall. intros z Hz. now apply repeat_spec in Hz. }
    destruct (worker_at_exists P v0 HP) as (idx0 & Hv0); [rewrite Er; now left|].
    assert (HW : layout_workers L = p_shape P) by apply HG.
    destruct HB as [EGs HB].
    assert (T0 : teq (x v0) X).
    { eapply teq_trans; [exact (HB idx0 v0 Hv0)|]. apply single_block; auto; rewrite HW; auto. apply Hv0. }
    destruct (HT v0 w (or_introl eq_refl) cin cout (x v0) (weight v0) bo b xs ys) as (y & Ey & Wy).
    { do 6 (split; [assumption|]). split; [|now repeat (split; [assumption|])]. destruct T0; congruence. }
    apply (conv_by_teq _ _ _ _ _ _ X) in Wy; auto. exists y. split; [exact Wy|]. split; [|rewrite Er; intros; now apply Hin0].
    intros idx v Hv. assert (v = v0) as ->.
    { apply worker_at_In in Hv. rewrite Er in Hv. destruct Hv as [<-|[]]; auto. }
    exists y. split.
    + unfold conv_forward_by. rewrite Er. cbn [length Nat.eqb].
      rewrite (proj2 (is_active_spec [v0] v0) (or_introl eq_refl)). exact Ey.
    + assert (Hy : nonneg_shape (tshape y) /\ length (tshape y) = length (p_shape P)).
      { destruct Wy as [Sy _]. rewrite Sy. split.
        - constructor; [lia|]. constructor; [lia|]. eapply Forall_impl; [|exact Hys]. cbn. lia.
        - rewrite EGs in EX. apply (f_equal (@length Z)) in EX. rewrite layout_shape_length in EX. destruct Hcnt as [Lc _]. cbn [length] in *.
          rewrite Hones, repeat_length. lia. }
      destruct Hy as [Ny Ly]. assert (HPs : pos_shape (p_shape P)) by apply HP. apply teq_sym. apply single_block.
      * rewrite balanced_workers by auto. auto.
      * rewrite balanced_workers by auto. apply Hv.
      * now rewrite balanced_shape by auto.
  - intros Hmany pre init eager g Hpre Hend.
    assert (Hw : window_ok (length (w_kernel w)) w).
    { destruct HG as (_ & _ & _ & _ & _ & HG). assert (exists n, window_ok n w) as [n Hn] by (decompose [and] HG; eauto).
      pose proof Hn as [En _]. now rewrite En. }
    assert (Hs : forall v, In v (p_ranks P) -> nonneg_shape (tshape (weight v)) /\ nonneg_shape (tshape (bias v))) by apply HPar.
    assert (Pb : forall v, In v (p_ranks P) -> exists wt bt,
       conv_parameter P dt rg weight v = Ok wt /\ teq wt (weight root) /\
       (if use_bias then conv_parameter P dt rg bias v else Ok (bias v)) = Ok bt /\
       same_bias (if use_bias then Some bt else None) bo).
    { intros v Hr. destruct (parameter_ok world P L w HG dt rg weight v) as (wt & Ewt & Twt); auto; [intros u Hu; now apply Hs|].
      unfold bo. destruct use_bias.
      - destruct (parameter_ok world P L w HG dt rg bias v) as (bt & Ebt & Tbt); auto; [intros u Hu; now apply Hs|].
        exists wt, bt. auto.
      - exists wt, (bias v). cbn. auto. }
    assert (HO : has_output w X b cin xs ys) by (repeat (split; [assumption|]); assumption).
    set (given := fun v => let wt := val (conv_parameter P dt rg weight v) in
      let bt := val (if use_bias then conv_parameter P dt rg bias v else Ok (bias v)) in (wt, if use_bias then Some bt else None)).
    destruct (C84_windows_proof R M world P L w (conv_sums M w groups cout (weight root) bo) (fun _ => cout) rzero
      (fun v => torch v (plain w) (fst (given v)) (snd (given v))) X x b cin xs ys HG
      (sums_local M w groups cout (weight root) bo Hg0 Hgc Hco) ltac:(lia) (or_introl HC)) as (_ & _ & K); auto.
    { intros v c' Hv _ Hc'. rewrite (Hc' HC). destruct (Pb v Hv) as (wt & bt & Ew & Tw & Eb & Tb).
      apply sums_computed; auto; unfold given; cbv zeta; cbn [fst snd].
      - rewrite Ew. exact Tw.
      - rewrite Eb. exact Tb. }
    destruct (K pre init eager g Hpre Hend) as (Y & HY & K1 & _). exists Y. split; [exact (windowed_sums M w groups cout _ _ X Y b cin xs ys HO HY)|].
    split; [|intros; now apply Hin0].
    intros idx v Hv. destruct (K1 idx v Hv) as (t & Et & Tt). exists t. split; auto.
    pose proof (worker_at_In _ _ _ Hv) as Hr. destruct (Pb v Hr) as (wt & bt & Ew & _ & Eb & _).
    unfold conv_forward_by. rewrite (proj2 (is_active_spec _ _) Hr). cbn [negb].
    destruct (Nat.eqb_spec (length (p_ranks P)) 1); [lia|].
    rewrite Ew. cbn [rbind]. rewrite Eb. cbn [rbind]. rewrite <- Et. unfold feature_output_by. unfold given. rewrite Ew, Eb. reflexivity.
Qed.

(** ** Average pools *)

(** Each entry is a sum of the values under the window, each once, those of the padding
    included, divided by the size of the window. *)
Definition average_by {R : CRing} (M : machine R) (divide : R -> Z -> R) (w : window) (X : tensor R) (b c : Z) (ys : list Z) (Y : tensor R) : Prop :=
  tshape Y = b :: c :: ys /\
  forall b' c' o, valid_index (tshape Y) (b' :: c' :: o) ->
  exists s, evaluates M (map (fun t => Num (value_at X rzero (b' :: c' :: window_at w o t))) (indices (w_kernel w))) s /\
    tat Y (b' :: c' :: o) = divide s (zprod (w_kernel w)).

Definition C84_pools_statement : Prop :=
  forall (R : CRing) (M : machine R) (divide : R -> Z -> R) (torch : Z -> tensor R -> result (tensor R)) (world : list Z) (P : part) (L : layout)
    (w : window) (X : tensor R) (b c : Z) (xs ys : list Z) (x : Z -> tensor R),
    (* torch's pool without padding *)
    (forall v e b c xs ys, has_output (bare w) e b c xs ys -> exists y, torch v e = Ok y /\ average_by M divide (bare w) e b c ys y) ->
    feature_given world P L w -> has_output w X b c xs ys -> holds_blocks P L X x -> within L w (b :: c :: ys) ->
    let shape v := tshape (x v) in
    let arg := halo_argument P w rzero shape x in
    let plan := halo_plan P w shape in
    let layer := history_rounds_by P (fun v => tshape (arg v)) (fun v => u_recv (plan v)) (fun v => u_send (plan v)) (m_add M) in
    forall pre init eager g, same_calls P arg pre -> ends world (layer (pre ++ [HForward arg])) init eager g ->
    exists Y, average_by M divide w X b c ys Y /\ blocks_delivered world P x Y (feature_output_by P w torch shape x (halo_result g)).

Lemma same_counts xs w ys ys' : counts xs w ys -> counts xs w ys' -> ys' = ys.
Proof.
  intros [A1 A2] [B1 B2]. apply (nth_ext _ _ 0 0); [congruence|]. intros j Hj. rewrite B1 in Hj.
  exact (window_count_unique _ _ _ _ _ _ _ (B2 j Hj) (A2 j Hj)).
Qed.

Definition average_sums {R : CRing} (M : machine R) (divide : R -> Z -> R) (w : window) : @window_relation R := fun _ c' g r =>
  exists s, evaluates M (map (fun t => Num (g c' t)) (indices (w_kernel w))) s /\ r = divide s (zprod (w_kernel w)).

Lemma average_local {R : CRing} (M : machine R) divide w : relation_local w (average_sums M divide w) (fun c => c).
Proof.
  intros c c' g g' r E Hc (s & Hs & ->). exists s. split; [|reflexivity].
  replace (map _ _) with (map (fun t => Num (g c' t)) (indices (w_kernel w))); [exact Hs|].
  apply map_ext_in. intros t Ht. apply in_indices in Ht. now rewrite E.
Qed.

Lemma C84_pools_proof : C84_pools_statement.
Proof.
  intros R M divide torch world P L w X b c xs ys x HT HG HO HB HI shape arg plan layer pre init eager g Hpre Hend.
  pose proof HO as (EX & Hcnt & Hb & Hc & Hys & Lx).
  destruct (C84_windows_proof R M world P L w (average_sums M divide w) (fun c => c) rzero torch X x b c xs ys HG (average_local M divide w) ltac:(lia))
    as (_ & _ & K); auto.
  { right. split; [reflexivity|]. exists (fun g r => exists s, evaluates M (map (fun t => Num (g t)) (indices (w_kernel w))) s /\ r = divide s (zprod (w_kernel w))).
    reflexivity. }
  { intros v c' _ _ _ e b' xs' ys' HO'. destruct (HT v e b' c' xs' ys' HO') as (y & Ey & Sy & Vy). exists y. split; [exact Ey|].
    exists b', c', xs', ys'. split; [exact HO'|]. split; [exact Sy|]. intros b1 c1 o Ho. destruct HO' as (_ & _ & _ & _ & _ & Lx').
    rewrite Lx'. exact (Vy b1 c1 o Ho). }
  destruct (K pre init eager g Hpre Hend) as (Y & (b1 & c1 & xs1 & ys1 & (E1 & Hcnt1 & _) & SY & VY) & K1 & K2).
  rewrite EX in E1. injection E1 as <- <- <-. rewrite (same_counts _ _ _ _ Hcnt Hcnt1) in SY.
  exists Y. split; [|split; [exact K1|exact K2]]. split; [exact SY|]. intros b' c' o Ho. rewrite Lx in VY. exact (VY b' c' o Ho).
Qed.

(** * Theorems *)

Theorem C84_windows : C84_windows_statement.
Proof. exact C84_windows_proof. Qed.
Theorem C84_convolutions : C84_convolutions_statement.
Proof. exact C84_convolutions_proof. Qed.
Theorem C84_pools : C84_pools_statement.
Proof. exact C84_pools_proof. Qed.

(** * Examples *)

(** Workers that add in different orders. *)
Definition alternate_window {R : CRing} (M : machine R) (groups v : Z) (w : window) : tensor R -> option (tensor R) -> tensor R -> result (tensor R) :=
  alternate_conv M w groups v true.
Lemma alternate_window_ok {R : CRing} (M : machine R) w groups : window_ok (length (w_kernel w)) w -> torch_windows_by M w groups (alternate_window M groups).
Proof.
  intros Hw v w' Hw' cin cout X W bias b xs ys HA. refine (alternate_conv_ok M w' groups _ v true cin cout X W bias b xs ys HA).
  destruct Hw' as [-> | ->]; [exact Hw|]. destruct Hw as (_ & A1 & A2 & A3 & A4 & A5 & A6 & A7). unfold window_ok, bare. cbn [w_kernel w_stride w_padding w_dilation].
  rewrite repeat_length. repeat (split; [auto; fail|]). split; [|exact A7]. apply Forall_forall. intros z Hz. apply repeat_spec in Hz. lia.
Qed.
Definition alternate_pool {R : CRing} (M : machine R) (divide : R -> Z -> R) (w : window) (v : Z) : tensor R -> result (tensor R) :=
  torch_sliding (pool_kernel (fun g => divide (alternate_terms M v (map (fun t => Num (g t)) (indices (w_kernel w)))) (zprod (w_kernel w)))) (fun c => c) w.
Lemma alternate_pool_ok {R : CRing} (M : machine R) divide w : window_ok (length (w_kernel w)) w ->
  forall v e b c xs ys, has_output (bare w) e b c xs ys -> exists y, alternate_pool M divide w v e = Ok y /\ average_by M divide (bare w) e b c ys y.
Proof.
  intros Hw v e b c xs ys HO. unfold alternate_pool.
  set (h := fun g : list Z -> R => divide (alternate_terms M v (map (fun t => Num (g t)) (indices (w_kernel w)))) (zprod (w_kernel w))).
  destruct (C60_torch_layers_proof R w (pool_kernel h) (fun c => c) rzero Hw) as (K & _).
  { apply C30_pooling_kernels. intros g g' E. unfold h. f_equal. f_equal. apply map_ext_in. intros t Ht. apply in_indices in Ht. now rewrite E. }
  destruct (proj2 (K c) e b xs ys HO) as (y & Ey & b2 & c2 & xs2 & ys2 & HO2 & Sy & Vy). exists y. split; auto.
  destruct HO as (E & Hcnt & _ & _ & _ & Lx). destruct HO2 as (E2 & Hcnt2 & _). rewrite E in E2. injection E2 as <- <- <-.
  rewrite (same_counts _ _ _ _ Hcnt Hcnt2) in Sy. split; [exact Sy|]. intros b' c' o Ho. rewrite (Vy b' c' o Ho). unfold by_function, pool_kernel, h.
  rewrite Lx. eexists. split; [apply alternate_terms_ok|reflexivity].
Qed.

(** C30's convolution, its input times 101; even workers leave the padding out. *)
Definition wr_G : tensor Zring := @mkt Zring (tshape cv_G) (fun i => 101 * tat cv_G i).
Definition wr_x (v : Z) : tensor Zring := @mkt Zring (tshape (cv_x v)) (fun i => 101 * tat (cv_x v) i).
Definition wr_shape (v : Z) := tshape (wr_x v).
Definition wr_arg := halo_argument cv_P cv_w (0 : car Zring) wr_shape wr_x.
Definition wr_plan := halo_plan cv_P cv_w wr_shape.
Definition wr_layer := history_rounds_by cv_P (fun v => tshape (wr_arg v)) (fun v => u_recv (wr_plan v)) (fun v => u_send (wr_plan v)) (m_add ex61_M).
Definition wr_g : @gst (@hst Zring) (tensor Zring) :=
  played cv_world (wr_layer ([HBackward wr_arg] ++ [HForward wr_arg])) cv_zero (fun _ _ _ _ => false) (fun _ => [1; 0; 3; 2]%nat) 500.
Definition wr_out := conv_forward_by cv_P cv_w true gx_dt gx_rg (alternate_window ex61_M 1) cv_weight cv_bias wr_shape wr_x (halo_result wr_g).
Definition wr_whole (v : Z) := val (alternate_window ex61_M 1 v cv_w (cv_weight 10) (Some (cv_bias 10)) wr_G).

Lemma wr_blocks : holds_blocks cv_P cv_L wr_G wr_x.
Proof.
  destruct fr_given as (_ & _ & _ & _ & _ & _ & (B1 & B2) & _). split; [exact B1|]. intros idx v Hv. destruct (B2 idx v Hv) as [S V].
  split; [exact S|]. intros i Hi. cbn [wr_x wr_G tat tshape block] in *. now rewrite (V i Hi).
Qed.
Lemma wr_arguments : conv_arguments cv_w 1 2 2 wr_G (cv_weight (hd 0 (p_ranks cv_P))) (Some (cv_bias (hd 0 (p_ranks cv_P)))) 1 [10] [10].
Proof.
  destruct fr_given as (_ & _ & _ & _ & _ & (B1 & B2 & B3 & B4 & B5 & B6 & B7 & B8 & B9 & B10 & B11 & B12 & _) & _).
  repeat (split; [assumption|]). reflexivity.
Qed.

Example C84_convolutions_example :
  torch_windows_by ex61_M cv_w 1 (alternate_window ex61_M 1) /\ feature_given cv_world cv_P cv_L cv_w /\ nth 1 (p_shape cv_P) 0 = 1 /\
  conv_parameters cv_P cv_w 2 2 1 true cv_weight cv_bias /\
  conv_arguments cv_w 1 2 2 wr_G (cv_weight (hd 0 (p_ranks cv_P))) (Some (cv_bias (hd 0 (p_ranks cv_P)))) 1 [10] [10] /\
  holds_blocks cv_P cv_L wr_G wr_x /\ (1 < length (p_ranks cv_P))%nat /\ within cv_L cv_w [1; 2; 10] /\
  same_calls cv_P wr_arg [HBackward wr_arg] /\
  ends cv_world (wr_layer ([HBackward wr_arg] ++ [HForward wr_arg])) cv_zero (fun _ _ _ _ => false) wr_g /\
  map (tat (val (wr_out 12))) (indices [1; 2; 3]) = [81072; 95520; 41088; 201872; 234480; 140064] /\
  (* the sequential layer on workers 10 and 11 *)
  map (fun i => tat (wr_whole 10) [0; fst i; snd i]) [(0, 9); (1, 9)] = [41088; 140064] /\
  map (fun i => tat (wr_whole 11) [0; fst i; snd i]) [(0, 9); (1, 9)] = [41104; 140080] /\
  wr_out 9 = Ok (wr_x 9).
Proof.
  destruct fr_given as (_ & _ & A3 & A4 & A5 & _ & _ & A8 & _).
  split; [apply alternate_window_ok, A3|]. split; [exact A3|]. split; [exact A4|]. split; [exact A5|]. split; [exact wr_arguments|].
  split; [exact wr_blocks|]. split; [cbn; lia|]. split; [exact A8|]. split; [repeat constructor|].
  split; [apply played_ends; vm_compute; reflexivity|]. do 3 (split; [vm_compute; reflexivity|]). reflexivity.
Qed.

(** An average pool with the same window and the same exchange. *)
Definition wp_torch : Z -> tensor Zring -> result (tensor Zring) := alternate_pool ex61_M Z.div cv_w.
Definition wp_out := feature_output_by cv_P cv_w wp_torch wr_shape wr_x (halo_result wr_g).

Example C84_pools_example :
  feature_given cv_world cv_P cv_L cv_w /\
  (forall v e b c xs ys, has_output (bare cv_w) e b c xs ys -> exists y, wp_torch v e = Ok y /\ average_by ex61_M Z.div (bare cv_w) e b c ys y) /\
  has_output cv_w wr_G 1 2 [10] [10] /\ holds_blocks cv_P cv_L wr_G wr_x /\ within cv_L cv_w [1; 2; 10] /\
  same_calls cv_P wr_arg [HBackward wr_arg] /\
  ends cv_world (wr_layer ([HBackward wr_arg] ++ [HForward wr_arg])) cv_zero (fun _ _ _ _ => false) wr_g /\
  (* the hypotheses of [C84_windows] *)
  relation_local cv_w (average_sums ex61_M Z.div cv_w) (fun c => c) /\ relation_per_channel (average_sums ex61_M Z.div cv_w) (fun c => c) /\
  (forall v c, computes (average_sums ex61_M Z.div cv_w) (fun c => c) (0 : car Zring) (plain cv_w) c (wp_torch v)) /\
  map (fun v => map (tat (val (wp_out v))) (indices [1; 2; 3])) [11; 12] = [[1674; 2586; 3696; 11781; 12688; 13797]; [5013; 6528; 4880; 15109; 16624; 11610]] /\ wp_out 9 = Ok (wr_x 9).
Proof.
  destruct fr_given as (_ & _ & A3 & _ & _ & _ & _ & A8 & _). destruct wr_arguments as (_ & _ & _ & _ & _ & _ & B1 & B2 & _ & B3 & B4 & _).
  assert (HT := alternate_pool_ok ex61_M Z.div cv_w ltac:(apply A3)).
  split; [exact A3|]. split; [exact HT|]. split; [do 2 (split; [assumption|]); do 2 (split; [lia|]); split; assumption|].
  split; [exact wr_blocks|]. split; [exact A8|]. split; [repeat constructor|].
  split; [apply C84_convolutions_example|]. split; [apply average_local|]. split.
  { split; [reflexivity|]. exists (fun g r => exists s, evaluates ex61_M (map (fun t => Num (g t)) (indices (w_kernel cv_w))) s /\ r = Z.div s (zprod (w_kernel cv_w))).
    reflexivity. }
  split.
  { intros v c e b xs ys HO. destruct (HT v e b c xs ys HO) as (y & Ey & Sy & Vy). exists y. split; [exact Ey|]. exists b, c, xs, ys.
    split; [exact HO|]. split; [exact Sy|]. destruct HO as (_ & _ & _ & _ & _ & Lx). rewrite Lx. exact Vy. }
  split; [vm_compute; reflexivity|reflexivity].
Qed.

Print Assumptions C84_windows.
Print Assumptions C84_convolutions.
Print Assumptions C84_pools.
