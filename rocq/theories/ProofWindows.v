(** The layers of a network with windows. *)

From Verif Require Import Prelude ModelSlicing ModelDecomposition ModelPartition SpecIndex SpecLayout SpecPartition ProofSlicing ProofDecomposition
  ProofPartition Ring Tensor Blocks ModelCollectives ModelBuffer P2P Rounds ModelRepartition PropRepartition ModelHaloMixin ProofHaloMixin ModelHaloExchange
  PropHaloMixin PropHaloExchange ModelFeatureLayer SpecFeature PropFeatureLayer PropFeatureConv ModelFeatureGrad SpecFeatureGrad PropFeatureGrad PropConvGrad
  ModelMaxPoolGrad SpecMaxPoolGrad PropMaxPoolGrad ModelConv ProofConv PropConv PropConvChannel PropConvGeneral
  ModelChannelGrad PropChannelGrad ModelGeneralGrad PropGeneralGrad ModelTraining SpecTraining ProofTraining ProofStages.

(** Results that are blocks on the workers of [P] and placeholders elsewhere. *)
Lemma deliver {R : CRing} world (F : Z -> result (tensor R)) P L Y :
  part_ok P -> (forall v, In v (p_ranks P) -> In v world) -> tshape Y = layout_shape L ->
  (forall idx v, worker_at P idx v -> exists t, F v = Ok t /\ teq t (block L idx Y)) ->
  (forall v, In v world -> ~ In v (p_ranks P) -> exists t, F v = Ok t /\ nonneg_shape (tshape t) /\ tshape t <> []) ->
  (exists y, returns world F y) /\ forall y, returns world F y -> held world (mkplace P L) Y y.
Proof.
  intros HP Hw E H1 H2. split.
  - apply returns_exists. intros v Hv. destruct (in_dec Z.eq_dec v (p_ranks P)) as [Hp|Hp].
    + destruct (worker_at_exists P v HP Hp) as [idx Hi]. destruct (H1 idx v Hi) as (t & Et & _). eauto.
    + destruct (H2 v Hv Hp) as (t & Et & _). eauto.
  - intros y Hy. split; cbn [pl_part pl_layout].
    + split; [exact E|]. intros idx v Hi. destruct (H1 idx v Hi) as (t & Et & T).
      rewrite Hy in Et by (apply Hw; eapply worker_at_In; eauto). injection Et as ->. exact T.
    + intros v Hv Hn. destruct (H2 v Hv Hn) as (t & Et & T). rewrite Hy in Et by auto. injection Et as ->. exact T.
Qed.

Lemma safe_ends {R : CRing} world P shape recv send (calls : list (@call R)) init eager :
  halo_safe R world P shape recv send -> exists g, ends world (ModelHaloExchange.history_rounds P shape recv send calls) init eager g.
Proof.
  intros (_ & _ & _ & H). destruct (H calls init) as (Hb & Hp & _). destruct (Hb eager) as [N HN].
  assert (K : forall m n g, (N - n <= m)%nat -> run world (rounds_prog (ModelHaloExchange.history_rounds P shape recv send calls)) init eager n g ->
            exists g', ends world (ModelHaloExchange.history_rounds P shape recv send calls) init eager g').
  { induction m as [|m IH]; intros n g Hm Hr; destruct (done_dec world (rounds_prog (ModelHaloExchange.history_rounds P shape recv send calls)) g) as [D|D];
      try (exists g; exists n; now split);
      destruct (Hp eager n g Hr D) as [g' Hs];
      pose proof (run_step _ _ _ _ _ _ _ Hr Hs) as Hr'; pose proof (HN _ _ Hr') as B.
    - exfalso. pose proof (HN _ _ Hr). lia.
    - apply (IH (1 + n)%nat g'); [lia|auto]. }
  apply (K N 0%nat (ginit init)); [lia|constructor].
Qed.

Lemma slide_sequential {R : CRing} (f : @kernel R) cout value w ys X b c xs :
  tshape X = b :: c :: xs -> counts xs w ys -> 0 < b -> 0 < c -> Forall (fun n => 0 < n) ys ->
  is_sequential f cout value w X (slide f cout value w ys X).
Proof.
  intros E Hc Hb Hc0 Hy. exists b, c, xs, ys. unfold slide. rewrite E. cbn [nth skipn tshape].
  do 6 (split; [solve [auto]|]). intros b' c' o _. cbn [tat]. reflexivity.
Qed.

Definition hst0 {R : CRing} : @hst R := mkhst no_tensor no_tensor no_tensor [].

Section Halo.
  Context {R : CRing}.
  Variables (world : list Z) (P : part) (w : window) (value : R) (x : Z -> tensor R).
  Let arg := halo_argument P w value (fun v => tshape (x v)) x.

  Lemma halo_forward_exists : halo_ready world P w value x -> exists saved, halo_forward world P w value x saved.
  Proof.
    intros [H1 H2]. destruct (safe_ends world P _ _ _ [HForward arg] (fun _ => hst0) (fun _ _ _ _ => false) H2) as [g Hg].
    exists (halo_result g). split; [exact H1|]. exists [], (fun _ => hst0), (fun _ _ _ _ => false), g.
    split; [constructor|]. split; [exact Hg|reflexivity].
  Qed.

  Lemma halo_backward_exists c : halo_ready world P w value x -> exists back, halo_backward world P w value x c back.
  Proof.
    intros [H1 H2]. destruct (safe_ends world P _ _ _ [HBackward c] (fun _ => hst0) (fun _ _ _ _ => false) H2) as [g Hg].
    exists (halo_result g). exists [], (fun _ => hst0), (fun _ _ _ _ => false), g.
    split; [constructor|]. split; [exact Hg|reflexivity].
  Qed.
End Halo.

(** * Pooling *)

Section Pool.
  Context {R : CRing}.
  Variables (world : list Z) (P : part) (L : layout) (w : window) (b c : Z) (xs ys : list Z) (cout : Z -> Z).
  Hypothesis HG : feature_given world P L w.
  Hypothesis EL : layout_shape L = b :: c :: xs.
  Hypothesis Hcnt : counts xs w ys.
  Hypothesis Hb : 0 < b.
  Hypothesis Hc : 0 < c.
  Hypothesis Hys : Forall (fun n => 0 < n) ys.
  Hypothesis Hco : 0 <= cout c.

  Lemma xs_length : length xs = length (w_kernel w).
  Proof.
    destruct HG as (_ & _ & _ & _ & EW & EN & _). apply (f_equal (@length Z)) in EL. apply (f_equal (@length Z)) in EW.
    unfold layout_shape, layout_workers in *. rewrite map_length in *. cbn in EL. lia.
  Qed.

  Lemma out_nonneg : nonneg_shape (b :: cout c :: ys).
  Proof. constructor; [lia|]. constructor; [lia|]. refine (Forall_impl _ _ Hys). cbn. lia. Qed.

  Lemma out_shape : layout_shape (balanced (b :: cout c :: ys) (p_shape P)) = b :: cout c :: ys.
  Proof.
    destruct HG as (_ & _ & HP & _ & _ & EN & _). apply balanced_shape; [apply HP|apply out_nonneg|].
    rewrite EN. cbn. rewrite (proj1 Hcnt). now rewrite xs_length.
  Qed.

  Hypothesis Hin : within L w (b :: c :: ys).

  Section Average.
    Variables (f : @kernel R) (K : @coefficients R).
    Hypothesis HK : linear_kernel w f cout K.
    Hypothesis HC : nth 1 (p_shape P) 0 = 1 \/ per_channel f cout.

    Lemma pool_sound : sound world (mkplace P L) (YPool P w f cout K) (seq_pool w f cout K ys) [] (mkplace P (balanced (b :: cout c :: ys) (p_shape P))).
    Proof.
      intros Th th X x _ [HX HO] ps. cbn [pl_part pl_layout] in *.
      assert (EX : tshape X = b :: c :: xs) by (rewrite (proj1 HX); exact EL).
      set (Y := slide f cout rzero w ys X).
      assert (EY : tshape Y = b :: cout c :: ys) by (unfold Y, slide; rewrite EX; reflexivity).
      pose proof (slide_sequential f cout rzero w ys X b c xs EX Hcnt Hb Hc Hys) as HS. fold Y in HS.
      assert (Hwi : within L w (out_counts X Y)) by (unfold out_counts; rewrite EX, EY; exact Hin).
      assert (HL : kernel_local w f cout) by (eapply linear_local; eauto).
      pose proof (halo_started world P L w rzero X x HG HX) as Hready.
      pose proof HG as (HN & HW & HP & _).
      pose proof (C30_proof R world P L w f cout rzero X Y x HG HL HC HS HX Hwi) as (_ & _ & F).
      assert (Fd : forall saved, halo_forward world P w rzero x saved ->
                (exists y, returns world (feature_output P w f cout (fun v => tshape (x v)) x saved) y) /\
                forall y, returns world (feature_output P w f cout (fun v => tshape (x v)) x saved) y ->
                  held world (mkplace P (balanced (b :: cout c :: ys) (p_shape P))) Y y).
      { intros saved (_ & pre & init & eager & g & Hpre & Hg & ->). destruct (F pre init eager g Hpre Hg) as [F1 F2].
        apply deliver; auto; [rewrite out_shape; exact EY|rewrite <- EY; exact F1|].
        intros v Hv Hn. exists (x v). split; [now apply F2|now apply HO]. }
      split.
      { destruct (halo_forward_exists world P w rzero x Hready) as [saved Hs]. destruct (Fd saved Hs) as [[y Hy] _].
        exists saved, y. now split. }
      intros saved out [Hs Hy]. split; [now apply (Fd saved Hs)|].
      intros dY dy [HY HOY]. cbn [pl_part pl_layout] in *.
      assert (EdY : tshape dY = tshape Y) by (rewrite EY, (proj1 HY); apply out_shape).
      assert (HBY : holds_blocks P (balanced (tshape Y) (p_shape P)) dY dy) by (rewrite EY; exact HY).
      assert (HNY : nonneg_shape (tshape Y)) by (rewrite EY; apply out_nonneg).
      destruct (C52_proof R world P L w f cout K X Y dY x dy HG HK HC HS HNY Hwi (proj1 HX) (fun idx v Hv => proj1 (proj2 HX idx v Hv)) EdY HBY)
        as (B0 & _ & B).
      set (cot := feature_back_argument P w K (fun v => tshape (x v)) (fun v => tshape (halo_argument P w rzero (fun v => tshape (x v)) x v)) dy) in *.
      assert (Bd : forall back, halo_backward world P w rzero x cot back ->
                (exists y, returns world (feature_gradient P w (fun v => tshape (x v)) dy back) y) /\
                forall y, returns world (feature_gradient P w (fun v => tshape (x v)) dy back) y ->
                  held world (mkplace P L) (input_gradient K w (tshape X) dY) y).
      { intros back (pre & init & eager & g & Hpre & Hg & ->). destruct (B pre init eager g Hpre Hg) as [B1 B2].
        apply deliver; auto; [exact (proj1 HX)|].
        intros v Hv Hn. exists (dy v). split; [now apply B2|now apply HOY]. }
      split.
      { destruct (halo_backward_exists world P w rzero x cot Hready) as [back Hbk]. destruct (Bd back Hbk) as [[dx Hdx] _].
        exists dx, (fun _ => []). exists back. split; [exact B0|]. split; [exact Hbk|]. now split. }
      intros dx ga (back & _ & Hbk & Hdx & ->). split; [now apply (Bd back Hbk)|apply no_grads].
    Qed.
  End Average.
End Pool.

Section MaxPool.
  Context {R : CRing}.
  Variables (world : list Z) (P : part) (L : layout) (w : window) (b c : Z) (xs ys : list Z) (choose : @choice R) (value : R).
  Hypothesis HG : feature_given world P L w.
  Hypothesis EL : layout_shape L = b :: c :: xs.
  Hypothesis Hcnt : counts xs w ys.
  Hypothesis Hb : 0 < b.
  Hypothesis Hc : 0 < c.
  Hypothesis Hys : Forall (fun n => 0 < n) ys.
  Hypothesis Hin : within L w (b :: c :: ys).
  Hypothesis HL : choice_local w choose.

  Lemma max_pool_sound : sound world (mkplace P L) (YMaxPool P w choose value) (seq_max_pool w choose value ys) []
    (mkplace P (balanced (b :: c :: ys) (p_shape P))).
  Proof.
    intros Th th X x _ [HX HO] ps. cbn [pl_part pl_layout] in *.
    assert (EX : tshape X = b :: c :: xs) by (rewrite (proj1 HX); exact EL).
    assert (Hsh : layout_shape (balanced (b :: c :: ys) (p_shape P)) = b :: c :: ys).
    { apply (out_shape world P L w b c xs ys (fun c => c)); auto. lia. }
    set (Y := slide (pool_kernel (chosen choose)) (fun c => c) value w ys X).
    assert (EY : tshape Y = b :: c :: ys) by (unfold Y, slide; rewrite EX; reflexivity).
    pose proof (slide_sequential (pool_kernel (chosen choose)) (fun c => c) value w ys X b c xs EX Hcnt Hb Hc Hys) as HS. fold Y in HS.
    assert (Hwi : within L w (out_counts X Y)) by (unfold out_counts; rewrite EX, EY; exact Hin).
    pose proof (halo_started world P L w value X x HG HX) as Hready.
    pose proof HG as (HN & HW & HP & _).
    assert (Main := fun dY dy => C57_proof R world P L w choose value X Y dY x dy HG HL HS Hwi HX).
    assert (Fd : forall saved, halo_forward world P w value x saved ->
              (exists y, returns world (feature_output P w (pool_kernel (chosen choose)) (fun c => c) (fun v => tshape (x v)) x saved) y) /\
              forall y, returns world (feature_output P w (pool_kernel (chosen choose)) (fun c => c) (fun v => tshape (x v)) x saved) y ->
                held world (mkplace P (balanced (b :: c :: ys) (p_shape P))) Y y).
    { intros saved (_ & pre & init & eager & g & Hpre & Hg & ->).
      destruct (C30_proof R world P L w (pool_kernel (chosen choose)) (fun c => c) value X Y x HG) as (_ & _ & F); auto.
      { intros c0 c' g0 g' E Hc'. unfold pool_kernel, chosen.
        assert (Eg : forall t, valid_index (w_kernel w) t -> g0 c' t = g' c' t) by (intros; apply E; auto).
        rewrite (proj2 HL _ _ Eg). apply Eg, HL. }
      { right. split; [reflexivity|]. exists (chosen choose). reflexivity. }
      destruct (F pre init eager g Hpre Hg) as [F1 F2].
      apply deliver; auto; [rewrite Hsh; exact EY|rewrite <- EY; exact F1|].
      intros v Hv Hn. exists (x v). split; [now apply F2|now apply HO]. }
    split.
    { destruct (halo_forward_exists world P w value x Hready) as [saved Hs]. destruct (Fd saved Hs) as [[y Hy] _].
      exists saved, y. now split. }
    intros saved out [Hs Hy]. split; [now apply (Fd saved Hs)|].
    intros dY dy [HY HOY]. cbn [pl_part pl_layout] in *.
    assert (EdY : tshape dY = tshape Y) by (rewrite EY, (proj1 HY); exact Hsh).
    assert (HBY : holds_blocks P (balanced (tshape Y) (p_shape P)) dY dy) by (rewrite EY; exact HY).
    destruct (Main dY dy EdY HBY) as (_ & _ & M).
    destruct Hs as (_ & pre & init & eager & g & Hpre & Hg & ->).
    destruct (M pre init eager g Hpre Hg) as (_ & B0 & B).
    set (cot := max_back_argument P w choose (fun v => tshape (x v)) (halo_result g) dy) in *.
    assert (Bd : forall back, halo_backward world P w value x cot back ->
              (exists y, returns world (feature_gradient P w (fun v => tshape (x v)) dy back) y) /\
              forall y, returns world (feature_gradient P w (fun v => tshape (x v)) dy back) y ->
                held world (mkplace P L) (max_gradient choose value w X dY) y).
    { intros back (pre' & init' & eager' & g' & Hpre' & Hg' & ->). destruct (B pre' init' eager' g' Hpre' Hg') as [B1 B2].
      apply deliver; auto; [exact (proj1 HX)|].
      intros v Hv Hn. exists (dy v). split; [now apply B2|now apply HOY]. }
    split.
    { destruct (halo_backward_exists world P w value x cot Hready) as [back Hbk]. destruct (Bd back Hbk) as [[dx Hdx] _].
      exists dx, (fun _ => []). exists back. split; [exact B0|]. split; [exact Hbk|]. now split. }
    intros dx ga (back & _ & Hbk & Hdx & ->). split; [now apply (Bd back Hbk)|apply no_grads].
  Qed.
End MaxPool.
