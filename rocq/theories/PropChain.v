(** Networks of layers on one partition, in one execution: C58. *)

From Coq Require Import RelationClasses.
From Verif Require Import Prelude SpecIndex SpecLayout SpecPartition SpecHalo ModelSlicing ModelDecomposition
  ModelPartition ProofSlicing ProofDecomposition ProofPartition Ring Tensor ModelCollectives PropCollectives PropExchange
  ModelUtilities PropUtilities Blocks P2P Rounds ModelRepartition ProofTransfer PropRepartition ModelHaloMixin ProofHaloMixin PropHaloMixin
  ModelHaloExchange ProofHaloLinks ProofHaloZones PropHaloExchange ModelFeatureLayer SpecFeature ProofFeatureLayer PropFeatureLayer
  PropFeatureCommon PropFeatureConv ModelGradients ProofGradients PropUpsampleGrad ModelFeatureGrad SpecFeatureGrad ProofFeatureGrad
  PropFeatureGrad ModelMaxPoolGrad SpecMaxPoolGrad ProofMaxPoolGrad PropMaxPoolGrad ModelChain SpecChain ProofChain.
Local Open Scope Z_scope.

Section Window.
  Context {R : CRing}.
  Notation hst := (@hst R).
  Variables (world : list Z) (P : part) (L : layout) (w : window) (shape : Z -> list Z).
  Hypothesis HG : feature_given world P L w.
  Hypothesis HS : set_up_for P L shape.
  Let Lp := pad_layout L (0 :: 0 :: w_padding w).
  Let H := feature_halos L w.
  Notation padded := (padded_extents (R := R) P w shape).
  Notation recv := (stage_recv P w shape).
  Notation send := (stage_send P w shape).

  Lemma st_planned : planned P Lp H padded recv send.
  Proof. exact (ow_planned world P L w HG [] (fun u => tzeros (shape u) : tensor R) HS). Qed.

  Lemma st_given : halo_given world P Lp H.
  Proof. exact (fg_given world P L w HG shape HS). Qed.

  Lemma st_setup shape' v : set_up_for P L shape' -> feature_setup P w shape v = feature_setup P w shape' v.
  Proof.
    intros HS'. destruct (in_dec Z.eq_dec v (p_ranks P)) as [Hv|Hv].
    - destruct (worker_at_exists P v) as [idx Hi]; [apply HG|auto|].
      now rewrite (fg_setup world P L w HG shape HS idx v Hi), (fg_setup world P L w HG shape' HS' idx v Hi).
    - pose proof (fg_inactive P w shape v Hv) as E. pose proof (fg_inactive P w shape' v Hv) as E'. congruence.
  Qed.

  Lemma st_world idx v : worker_at P idx v -> In v world.
  Proof. intros Hv. apply HG. eapply worker_at_In; eauto. Qed.

  Lemma holds_setup (X : tensor R) x : holds_blocks P L X x -> set_up_for P L (fun v => tshape (x v)).
  Proof. intros HB idx v Hv. exact (proj1 (proj2 HB idx v Hv)). Qed.

  (** The forward pass up to the halo layer's output. *)
  Section Forward.
    Variables (value : R) (X : tensor R) (S0 : Z -> hst).
    Let x v := h_t (S0 v).
    Hypothesis HB : holds_blocks P L X x.
    Let arg := halo_argument P w value (fun v => tshape (x v)) x.
    Let S1 := sync_rounds (halo_forward P w shape) (sync_rounds [worker_step (pad_step P w value shape)] S0).

    Lemma st_padded v : sync_rounds [worker_step (pad_step P w value shape)] S0 v = set_t (arg v) (S0 v).
    Proof.
      rewrite sync_step. unfold pad_step.
      assert (E : halo_input P w value shape (fun _ => h_t (S0 v)) v = Ok (arg v)).
      { transitivity (halo_input P w value (fun v => tshape (x v)) x v).
        - unfold halo_input. rewrite (st_setup (fun v => tshape (x v)) v (holds_setup X x HB)). reflexivity.
        - destruct (in_dec Z.eq_dec v world) as [Hv|Hv]; [exact (proj1 (halo_started world P L w value X x HG HB) v Hv)|].
          assert (Hn : ~ In v (p_ranks P)) by (intros Hr; apply Hv; now apply HG).
          unfold arg, halo_argument, halo_input. pose proof (fg_inactive P w (fun v => tshape (x v)) v Hn) as E. rewrite E. reflexivity. }
      rewrite E. reflexivity.
    Qed.

    Lemma st_exchanged : exists eager g,
      ends world (history_rounds P padded recv send ([] ++ [HForward arg])) S0 eager g /\
      forall v, In v world -> steq (halo_result g v) (h_t (S1 v)) /\ h_hist (S1 v) = h_hist (S0 v).
    Proof.
      destruct (forward_alone world P Lp H padded recv send st_given st_planned arg S0 _ st_padded) as (eager & g & Hg & E).
      exists eager, g. split; [exact Hg|]. intros v Hv. split; [exact (E v Hv)|].
      unfold S1, halo_forward. rewrite (halo_hist P padded recv send) by now left. rewrite st_padded. reflexivity.
    Qed.

    (** ... and to the end. *)
    Variables (f : @kernel R) (cout : Z -> Z) (bk : @backward_of R) (Y : tensor R).
    Hypothesis HK : kernel_local w f cout.
    Hypothesis HC : nth 1 (p_shape P) 0 = 1 \/ per_channel f cout.
    Variables (b c : Z) (xs ys : list Z).
    Hypothesis EX : tshape X = b :: c :: xs.
    Hypothesis EY : tshape Y = b :: cout c :: ys.
    Hypothesis Hcnt : counts xs w ys.
    Hypothesis Hb : 0 < b.
    Hypothesis Hc0 : 0 < c.
    Hypothesis Hys : Forall (fun n => 0 < n) ys.
    Hypothesis HY : forall b' c' o, valid_index (tshape Y) (b' :: c' :: o) ->
      tat Y (b' :: c' :: o) = f c c' (fun ch t => value_at X value (b' :: ch :: seen_point (length xs) w o t)).
    Hypothesis Hin : within L w (b :: c :: ys).
    Let S2 := sync_rounds (stage_forward P (SWindow w f cout value bk shape)) S0.

    Lemma st_forward idx v : worker_at P idx v ->
      teq (h_t (S2 v)) (block (balanced (tshape Y) (p_shape P)) idx Y) /\
      exists e, h_hist (S2 v) = h_hist (S0 v) ++ [e] /\ tshape e = padded_shape Lp H idx /\
        shows P w b c xs ys idx (local_in L w idx e) value X.
    Proof.
      intros Hv. pose proof (st_world idx v Hv) as Hw. destruct st_exchanged as (eager & g & Hg & HE). destruct (HE v Hw) as [[E1 E2] E3].
      assert (E4 : S2 v = match output_step P w f cout shape v (mkhst (h_t (S1 v)) (h_l (S1 v)) (h_r (S1 v)) (h_hist (S1 v) ++ [h_t (S1 v)])) with
                          | Ok s => s | Raise _ => failed end).
      { unfold S2, stage_forward. rewrite !sync_rounds_app. fold S1. reflexivity. }
      destruct (exchanged_by world P L w f value X Y x HG b c xs ys EX Hcnt Hb Hc0 Hys HY HB Hin
        _ _ _ [] _ _ g idx v st_planned (Forall_nil _) Hg Hv) as [F1 F2].
      assert (G1 : tshape (h_t (S1 v)) = padded_shape Lp H idx) by (rewrite <- E1; exact F1).
      destruct (output_ok world P L w f cout value X Y x HG HK HC b c xs ys EX EY Hcnt Hb Hc0 Hys HY HB Hin idx (proj1 Hv) (h_t (S1 v)) G1) as (t & Et & Tt).
      { intros q Hq. rewrite <- E2. now apply F2. }
      assert (E5 : S2 v = mkhst t (h_l (S1 v)) (h_r (S1 v)) (h_hist (S1 v) ++ [h_t (S1 v)])).
      { rewrite E4. unfold output_step, feature_output. cbn [h_t].
        rewrite (fg_setup world P L w HG shape HS idx v Hv). cbn [rbind u_needed]. unfold needed_of. rewrite Et. reflexivity. }
      rewrite E5. cbn [h_t h_hist]. split; [exact Tt|]. exists (h_t (S1 v)). rewrite E3. split; [reflexivity|]. split; [exact G1|].
      pose proof (windows_seen world P L w HG b c xs ys Hcnt Hb Hc0 Hys Hin _ _ _ st_planned value X x [] _ _ g idx v EX HB (Forall_nil _) Hg Hv)
        as (b0 & c0 & xs0 & A1 & A2 & A3).
      exists b0, c0, xs0.
      unfold local_in, slice_tensor in A1, A3 |- *. cbn [read_slice tshape tat] in *. rewrite <- E1. split; [exact A1|]. split; [exact A2|].
      intros b' c' o t' Hp Ht b1 c1 o1 Eo. rewrite <- E2. exact (A3 b' c' o t' Hp Ht b1 c1 o1 Eo).
    Qed.
  End Forward.

  (** The backward pass from the halo layer on. *)
  Section Backward.
    Variables (bk : @backward_of R) (S0 : Z -> hst) (back : Z -> tensor R) (hs : Z -> list (tensor R)).
    Let S1 := sync_rounds [worker_step (cotangent_step P w bk shape)] S0.
    Let S2 := sync_rounds (stage_backward P (SWindow w (fun _ _ _ => rzero) (fun c => c) rzero bk shape)) S0.
    Hypothesis H1 : forall idx v, worker_at P idx v -> h_t (S1 v) = back v /\ h_hist (S1 v) = hs v.
    (* what every execution of the halo layer alone would give *)
    Variable dX : tensor R.
    Hypothesis HE : forall (x dy back' : Z -> tensor R) init eager gb,
      (forall v, In v (p_ranks P) -> back' v = back v /\ dy v = h_t (S0 v)) ->
      (forall v, ~ In v (p_ranks P) -> back' v = dy v /\ tshape (dy v) = tshape (x v)) ->
      set_up_for P L (fun v => tshape (x v)) ->
      ends world (history_rounds P padded recv send ([] ++ [HBackward back'])) init eager gb ->
      forall idx v, worker_at P idx v ->
        exists t, feature_gradient P w (fun v => tshape (x v)) dy (halo_result gb) v = Ok t /\ teq t (block L idx dX).

    Lemma st_backward idx v : worker_at P idx v -> teq (h_t (S2 v)) (block L idx dX) /\ h_hist (S2 v) = hs v.
    Proof.
      intros Hv. pose proof (st_world idx v Hv) as Hw. assert (HPo : part_ok P) by apply HG.
      set (bt := fun v => h_t (S1 v)).
      destruct (backward_alone world P Lp H padded recv send st_given st_planned bt S1 S1) as (eager & g & Hg & E).
      { intros u. unfold bt. destruct (S1 u). reflexivity. }
      set (dy := fun u => if is_active (p_ranks P) u then h_t (S0 u) else bt u).
      set (x := fun u => if is_active (p_ranks P) u then tzeros (shape u) else bt u : tensor R).
      assert (HS' : set_up_for P L (fun u => tshape (x u))).
      { intros i u Hu. unfold x. rewrite (proj2 (is_active_spec _ _) (worker_at_In _ _ _ Hu)). exact (HS i u Hu). }
      destruct (HE x dy bt S1 eager g) with (idx := idx) (v := v) as (t & Et & Tt); auto.
      { intros u Hu. destruct (worker_at_exists P u HPo Hu) as [i Hi]. split; [apply (H1 i u Hi)|].
        unfold dy. now rewrite (proj2 (is_active_spec _ _) Hu). }
      { intros u Hu. unfold dy, x. rewrite (proj2 (is_active_false _ _) Hu). auto. }
      set (S3 := sync_rounds (halo_backward P w shape) S1).
      assert (E3 : steq (halo_result g v) (h_t (S3 v))) by exact (E v Hw).
      assert (E4 : S2 v = match gradient_step P w shape v (S3 v) with Ok s => s | Raise _ => failed end).
      { unfold S2, stage_backward. rewrite !sync_rounds_app. fold S1. fold S3. reflexivity. }
      unfold feature_gradient in Et. rewrite <- (st_setup (fun u => tshape (x u)) v HS') in Et.
      unfold gradient_step, feature_gradient in E4.
      rewrite (fg_setup world P L w HG shape HS idx v Hv) in Et, E4. cbn [rbind u_padding u_halo] in Et, E4.
      pose proof (pad_backward_same (map2 (fun a b : Z * Z => (fst a + fst b, snd a + snd b))
        (compute_local_padding (p_shape P) idx (0 :: 0 :: w_padding w)) (recv_plan (feature_halos L w) idx)) _ _ E3) as Es.
      rewrite Et in Es. unfold same in Es. destruct (pad_backward _ (h_t (S3 v))) as [t'|]; [|contradiction]. cbn [rbind] in E4.
      rewrite E4. cbn [set_t h_t h_hist]. split.
      - eapply teq_trans; [|exact Tt]. apply steq_teq. now symmetry.
      - unfold S3, halo_backward. rewrite (halo_hist P padded recv send) by now right. apply (H1 idx v Hv).
    Qed.
  End Backward.
End Window.

Section Network.
  Context {R : CRing}.
  Notation hst := (@hst R).
  Variables (world : list Z) (P : part).
  Hypothesis HN : NoDup world.
  Implicit Types (X Y : tensor R).

  Lemma affine_local w (f : @kernel R) cout K : affine_kernel P w f cout K -> kernel_local w f cout.
  Proof.
    intros (f0 & bias & HK & _ & E) c c' g g' Eg Hc. rewrite !E by auto. f_equal. exact (linear_local w f0 cout K HK c c' g g' Eg Hc).
  Qed.

  Lemma chosen_local w (choose : @choice R) : choice_local w choose ->
    forall g g' : list Z -> R, (forall t, valid_index (w_kernel w) t -> g t = g' t) -> chosen choose g = chosen choose g'.
  Proof. intros HC g g' E. unfold chosen. rewrite (proj2 HC g g' E). apply E. apply HC. Qed.

  Lemma chain_shapes L X net L' Y dY dX : chain world P L X net L' Y dY dX ->
    tshape X = layout_shape L /\ tshape Y = layout_shape L' /\ tshape dY = tshape Y /\ tshape dX = tshape X.
  Proof.
    induction 1 as [| |L X w choose value shape Y1 net L' Y dY D HG EX HS HC HQ HI _ IH| ]; cbn [tshape input_gradient max_gradient] in *; intuition congruence.
  Qed.

  (** Every round can be part of any program. *)
  Lemma stage_rounds_ok L w f cout value bk shape : feature_given world P L w -> set_up_for P L shape ->
    kernel_of_values (R := R) f -> match bk with BLinear _ => True | BMax choose => value_choice choose end ->
    Forall (round_ok world eqH steq) (stage_forward P (SWindow w f cout value bk shape)) /\
    Forall (round_ok world eqH steq) (stage_backward P (SWindow w f cout value bk shape)).
  Proof.
    intros HG HS Hf Hb. pose proof (st_given world P L w shape HG HS) as Gi. pose proof (st_planned (R := R) world P L w shape HG HS) as Pl.
    split; cbn [stage_forward stage_backward app]; constructor.
    - apply pad_step_ok.
    - apply Forall_app. split; [|constructor; [apply store_ok|constructor; [now apply output_step_ok|constructor]]].
      apply Forall_forall. intros r Hr. apply in_map_iff in Hr as (i & <- & Hi).
      eapply (halo_round_ok world P _ _ _ _ _ Gi Pl); [left; reflexivity|].
      pose proof (dims_ok world P _ _ Gi) as D. rewrite Forall_forall in D. auto.
    - now apply cotangent_step_ok.
    - apply Forall_app. split; [|constructor; [apply gradient_step_ok|constructor]].
      apply Forall_forall. intros r Hr. apply in_map_iff in Hr as (i & <- & Hi).
      eapply (halo_round_ok world P _ _ _ _ _ Gi Pl); [right; reflexivity|].
      pose proof (dims_rev_ok world P _ _ Gi) as D. rewrite Forall_forall in D. auto.
  Qed.

  Lemma chain_rounds_ok L X net L' Y dY dX : chain world P L X net L' Y dY dX ->
    Forall (fun st => Forall (round_ok world eqH steq) (stage_forward P st) /\ Forall (round_ok world eqH steq) (stage_backward P st)) net.
  Proof.
    induction 1 as [|L X w f cout K shape Y1 net L' Y dY D HG EX HS HA HV HC HQ Hn HI _ IH
                    |L X w choose value shape Y1 net L' Y dY D HG EX HS HC HQ HI _ IH|L X act slope net L' Y dY D EX _ IH]; constructor; auto.
    - apply (stage_rounds_ok L); auto.
    - apply (stage_rounds_ok L); auto.
      + intros c c' g g' E. unfold pool_kernel. apply (chosen_local w choose HC). auto.
      + intros g g' E. apply HC. auto.
    - cbn [stage_forward stage_backward]. split; repeat apply Forall_cons; auto using store_ok, point_step_ok, slope_step_ok.
  Qed.

  Definition top (s : hst) : tensor R := last (h_hist s) (tzeros []).

  Lemma pop_app (s : hst) hs e : h_hist s = hs ++ [e] -> pop s = Ok (e, mkhst (h_t s) (h_l s) (h_r s) hs).
  Proof.
    intros E. unfold pop. rewrite E. rewrite last_last, removelast_last. destruct (hs ++ [e]) eqn:E'; auto. now destruct hs.
  Qed.

  (** What a network does, in lock-step. *)
  Lemma chain_run L X net L' Y dY dX : chain world P L X net L' Y dY dX ->
    forall S0, holds_blocks P L X (fun v => h_t (S0 v)) ->
    exists es : Z -> list (tensor R),
      let S1 := sync_rounds (flat_map (stage_forward P) net) S0 in
      holds_blocks P L' Y (fun v => h_t (S1 v)) /\
      (forall idx v, worker_at P idx v -> h_hist (S1 v) = h_hist (S0 v) ++ es v) /\
      forall T0 hs, holds_blocks P L' dY (fun v => h_t (T0 v)) ->
        (forall idx v, worker_at P idx v -> h_hist (T0 v) = hs v ++ es v) ->
        let T1 := sync_rounds (flat_map (stage_backward P) (rev net)) T0 in
        holds_blocks P L dX (fun v => h_t (T1 v)) /\ forall idx v, worker_at P idx v -> h_hist (T1 v) = hs v.
  Proof.
    induction 1 as [L X dY EX ED|L X w f cout K shape Y1 net L' Y dY D HG EX HS HA HV HC HQ Hn HI Hch IH
                    |L X w choose value shape Y1 net L' Y dY D HG EX HS HC HQ HI Hch IH|L X act slope net L' Y dY D EX Hch IH]; intros S0 HB.
    - exists (fun _ => []). cbn. split; [auto|]. split; [intros; now rewrite app_nil_r|]. intros T0 hs HT Hh. split; auto.
      intros idx v Hv. now rewrite (Hh idx v Hv), app_nil_r.
    - set (st := SWindow w f cout rzero (BLinear K) shape). set (Sa := sync_rounds (stage_forward P st) S0).
      destruct (chain_shapes _ _ _ _ _ _ _ Hch) as (E1 & _ & E3 & E4).
      destruct HQ as (b & c & xs & ys & EG & EY & Hcnt & Hb & Hc0 & Hys & HY).
      unfold out_counts in HI. rewrite EG, EY in HI. cbn [nth skipn] in HI.
      assert (FW := fun idx v => st_forward world P L w shape HG HS rzero X S0 HB f cout (BLinear K) Y1 (affine_local w f cout K HA) HC
                      b c xs ys EG EY Hcnt Hb Hc0 Hys HY HI idx v). fold st Sa in FW.
      destruct (IH Sa) as (es & A1 & A2 & A3).
      { split; [exact E1|]. intros idx v Hv. exact (proj1 (FW idx v Hv)). }
      exists (fun v => top (Sa v) :: es v). cbn [flat_map]. rewrite sync_rounds_app. fold Sa.
      split; [exact A1|]. split.
      { intros idx v Hv. rewrite (A2 idx v Hv). destruct (FW idx v Hv) as (_ & e & Ee & _). unfold top. rewrite Ee, last_last, <- app_assoc. reflexivity. }
      intros T0 hs HT Hh. cbn [rev]. rewrite flat_map_app. cbn [flat_map]. rewrite app_nil_r, sync_rounds_app.
      destruct (A3 T0 (fun v => hs v ++ [top (Sa v)]) HT) as [B1 B2].
      { intros idx v Hv. rewrite (Hh idx v Hv), <- app_assoc. reflexivity. }
      set (Tb := sync_rounds (flat_map (stage_backward P) (rev net)) T0) in *.
      destruct HA as (f0 & bias & HL & HC0 & _).
      assert (BW : forall idx v, worker_at P idx v ->
        teq (h_t (sync_rounds (stage_backward P st) Tb v)) (block L idx (input_gradient K w (tshape X) D)) /\
        h_hist (sync_rounds (stage_backward P st) Tb v) = hs v).
      { apply (st_backward world P L w shape HG HS (BLinear K) Tb
          (fun v => match feature_cotangent P w K shape (padded_extents (R := R) P w shape) (fun u => h_t (Tb u)) v with Ok t => t | Raise _ => h_t (Tb v) end) hs).
        - intros idx v Hv. rewrite sync_step. unfold cotangent_step. rewrite (pop_app _ _ _ (B2 idx v Hv)). cbn [rbind fst snd].
          rewrite (ow_back world P L w HG [] (fun u => tzeros (shape u)) HS K (fun u => h_t (Tb u)) idx v Hv : feature_cotangent P w K shape (padded_extents (R := R) P w shape) (fun u => h_t (Tb u)) v = _).
          pose proof (ow_back world P L w HG [] (fun u => tzeros (shape u)) HS K (fun _ => h_t (Tb v)) idx v Hv) as Ec.
          change (feature_cotangent P w K shape (padded_extents (R := R) P w shape) (fun _ => h_t (Tb v)) v = Ok (local_back L w idx K (h_t (Tb v)))) in Ec.
          rewrite Ec. cbn [rbind set_t h_t h_hist]. auto.
        - intros x dy back' init eager gb Ha Hi HS' Hend idx v Hv. rewrite EG. rewrite EY in Hn, B1, E4.
          assert (Hout : 0 <= cout c) by (inversion Hn as [|? ? _ Hn']; now inversion Hn').
          refine (gradient_blocks world P L w HG f0 (fun _ => f0) cout K (fun _ => K) HL (fun _ _ => HL) b c xs ys
            (fun _ _ _ _ _ => eq_refl) (fun _ _ => HC0) (eq_trans (eq_sym EX) EG) Hcnt Hb Hc0 Hout Hys HI x dy back' D HS'
            (fun u _ Hu => proj2 (Hi u Hu)) E4 _ _ _ _ (st_planned world P L w shape HG HS) _ (fun u Hu => proj1 (Hi u Hu))
            [] init eager gb (Forall_nil _) Hend idx v Hv).
          + destruct B1 as [B0 B1]. split; [exact B0|]. intros i u Hu. rewrite (proj2 (Ha u (worker_at_In _ _ _ Hu))). exact (B1 i u Hu).
          + intros i u Hu. destruct (Ha u (worker_at_In _ _ _ Hu)) as [-> ->].
            rewrite (ow_back world P L w HG [] (fun u => tzeros (shape u)) HS K (fun u => h_t (Tb u)) i u Hu : feature_cotangent P w K shape (padded_extents (R := R) P w shape) (fun u => h_t (Tb u)) u = _).
            reflexivity. }
      split; [split; [exact EX|]|]; intros idx v Hv; apply (BW idx v Hv).
    - set (st := SWindow w (pool_kernel (chosen choose)) (fun c => c) value (BMax choose) shape). set (Sa := sync_rounds (stage_forward P st) S0).
      destruct (chain_shapes _ _ _ _ _ _ _ Hch) as (E1 & _ & E3 & E4).
      destruct HQ as (b & c & xs & ys & EG & EY & Hcnt & Hb & Hc0 & Hys & HY).
      unfold out_counts in HI. rewrite EG, EY in HI. cbn [nth skipn] in HI.
      destruct (C30_pooling_kernels R w (chosen choose) (chosen_local w choose HC)) as [K1 K2].
      assert (FW := fun idx v => st_forward world P L w shape HG HS value X S0 HB (pool_kernel (chosen choose)) (fun c => c) (BMax choose) Y1 K1 (or_intror K2)
                      b c xs ys EG EY Hcnt Hb Hc0 Hys HY HI idx v). fold st Sa in FW.
      destruct (IH Sa) as (es & A1 & A2 & A3).
      { split; [exact E1|]. intros idx v Hv. exact (proj1 (FW idx v Hv)). }
      exists (fun v => top (Sa v) :: es v). cbn [flat_map]. rewrite sync_rounds_app. fold Sa.
      split; [exact A1|]. split.
      { intros idx v Hv. rewrite (A2 idx v Hv). destruct (FW idx v Hv) as (_ & e & Ee & _). unfold top. rewrite Ee, last_last, <- app_assoc. reflexivity. }
      intros T0 hs HT Hh. cbn [rev]. rewrite flat_map_app. cbn [flat_map]. rewrite app_nil_r, sync_rounds_app.
      destruct (A3 T0 (fun v => hs v ++ [top (Sa v)]) HT) as [B1 B2].
      { intros idx v Hv. rewrite (Hh idx v Hv), <- app_assoc. reflexivity. }
      set (Tb := sync_rounds (flat_map (stage_backward P) (rev net)) T0) in *.
      set (fwd := fun v => top (Sa v)).
      assert (HF : forall idx v, worker_at P idx v ->
        tshape (fwd v) = padded_shape (pad_layout L (0 :: 0 :: w_padding w)) (feature_halos L w) idx /\
        shows P w b c xs ys idx (local_in L w idx (fwd v)) value X).
      { intros idx v Hv. destruct (FW idx v Hv) as (_ & e & Ee & Es & Ew). unfold fwd, top. rewrite Ee, last_last. auto. }
      assert (HK : forall (dy : Z -> tensor R) idx v, worker_at P idx v -> max_cotangent P w choose shape fwd dy v =
        Ok (slice_backward (padded_shape (pad_layout L (0 :: 0 :: w_padding w)) (feature_halos L w) idx) (slice_of L w idx)
            (max_scatter (max_positions choose w (local_in L w idx (fwd v))) (tshape (local_in L w idx (fwd v))) (dy v)))).
      { intros dy idx v Hv. unfold max_cotangent. rewrite (fg_setup world P L w HG shape HS idx v Hv). cbn [rbind u_needed].
        unfold local_in, slice_tensor, slice_of. now rewrite (proj1 (HF idx v Hv)). }
      assert (BW : forall idx v, worker_at P idx v ->
        teq (h_t (sync_rounds (stage_backward P st) Tb v)) (block L idx (max_gradient choose value w X D)) /\
        h_hist (sync_rounds (stage_backward P st) Tb v) = hs v).
      { apply (st_backward world P L w shape HG HS (BMax choose) Tb
          (fun v => match max_cotangent P w choose shape fwd (fun u => h_t (Tb u)) v with Ok t => t | Raise _ => h_t (Tb v) end) hs).
        - intros idx v Hv. rewrite sync_step. unfold cotangent_step. rewrite (pop_app _ _ _ (B2 idx v Hv)). cbn [rbind fst snd].
          pose proof (HK (fun _ => h_t (Tb v)) idx v Hv) as Ec. rewrite (HK (fun u => h_t (Tb u)) idx v Hv).
          change (max_cotangent P w choose shape (fun _ => top (Sa v)) (fun _ => h_t (Tb v)) v)
            with (max_cotangent P w choose shape fwd (fun _ => h_t (Tb v)) v).
          rewrite Ec. cbn [rbind set_t h_t h_hist]. auto.
        - intros x dy back' init eager gb Ha Hi HS' Hend idx v Hv. rewrite EY in E4, B1.
          assert (HBx : holds_blocks P L X (fun u => mkt (tshape (x u)) (fun i => match index_in P u with Some j => tat (block L j X) i | None => rzero end))).
          { split; [exact EX|]. intros i u Hu. split; [exact (HS' i u Hu)|]. intros p _. cbn [tat]. apply index_in_spec in Hu; [|apply HG]. now rewrite Hu. }
          refine (mp_blocks world P L w HG b c xs ys (eq_trans (eq_sym EX) EG) Hcnt Hb Hc0 Hys HI _ _ _ (st_planned world P L w shape HG HS)
            choose value X D _ dy back' fwd HC EG HBx E4 _ (fun u _ Hu => proj2 (Hi u Hu)) HF _ (fun u Hu => proj1 (Hi u Hu))
            [] init eager gb (Forall_nil _) Hend idx v Hv).
          + destruct B1 as [B0 B1]. split; [exact B0|]. intros i u Hu. rewrite (proj2 (Ha u (worker_at_In _ _ _ Hu))). exact (B1 i u Hu).
          + intros i u Hu. destruct (Ha u (worker_at_In _ _ _ Hu)) as [-> ->]. rewrite (HK (fun u => h_t (Tb u)) i u Hu). reflexivity. }
      split; [split; [exact EX|]|]; intros idx v Hv; apply (BW idx v Hv).
    - set (st := SPoint act slope). set (Sa := sync_rounds (stage_forward P st) S0).
      destruct (chain_shapes _ _ _ _ _ _ _ Hch) as (E1 & _ & E3 & E4). cbn [tshape] in E1, E4.
      assert (FW : forall v, h_t (Sa v) = mkt (tshape (h_t (S0 v))) (fun i => act (tat (h_t (S0 v)) i)) /\ h_hist (Sa v) = h_hist (S0 v) ++ [h_t (S0 v)])
        by (split; reflexivity).
      destruct (IH Sa) as (es & A1 & A2 & A3).
      { split; [exact EX|]. intros idx v Hv. rewrite (proj1 (FW v)). destruct (proj2 HB idx v Hv) as [Es V].
        split; [exact Es|]. cbn [tshape tat]. intros p Hp. cbn [block tat]. f_equal. exact (V p Hp). }
      exists (fun v => h_t (S0 v) :: es v). cbn [flat_map]. rewrite sync_rounds_app. fold Sa.
      split; [exact A1|]. split.
      { intros idx v Hv. rewrite (A2 idx v Hv). rewrite (proj2 (FW v)), <- app_assoc. reflexivity. }
      intros T0 hs HT Hh. cbn [rev]. rewrite flat_map_app. cbn [flat_map]. rewrite app_nil_r, sync_rounds_app.
      destruct (A3 T0 (fun v => hs v ++ [h_t (S0 v)]) HT) as [B1 B2].
      { intros idx v Hv. rewrite (Hh idx v Hv), <- app_assoc. reflexivity. }
      set (Tb := sync_rounds (flat_map (stage_backward P) (rev net)) T0) in *.
      assert (BW : forall idx v, worker_at P idx v -> sync_rounds (stage_backward P st) Tb v =
        set_t (mkt (tshape (h_t (Tb v))) (fun i => rmul (tat (h_t (Tb v)) i) (slope (tat (h_t (S0 v)) i)))) (mkhst (h_t (Tb v)) (h_l (Tb v)) (h_r (Tb v)) (hs v))).
      { intros idx v Hv. cbn [stage_backward st]. rewrite sync_step. unfold slope_step. rewrite (pop_app _ _ _ (B2 idx v Hv)). reflexivity. }
      split; [split; [exact EX|]|]; intros idx v Hv; rewrite (BW idx v Hv); [|reflexivity].
      cbn [set_t h_t]. destruct (proj2 B1 idx v Hv) as [Es V], (proj2 HB idx v Hv) as [Es' V'].
      split; [exact Es|]. cbn [tshape tat block]. intros p Hp. rewrite (V p Hp). f_equal. f_equal. apply V'.
      rewrite Es'. change (tshape (block L idx X)) with (tshape (block L idx D)). rewrite <- Es. exact Hp.
  Qed.
End Network.

(** * C58: networks of layers, trained without synchronisation *)

Definition C58_statement : Prop :=
  forall (R : CRing) (world : list Z) (P : part) (us : list (@use R)) (facts : list (@fact R)) (init : Z -> @hst R),
    NoDup world -> (forall v, In v (p_ranks P) -> In v world) ->
    (* any sequence of forward and backward passes of any networks *)
    Forall2 (used world P) us facts -> (forall v, h_hist (init v) = []) ->
    let rounds := training_rounds P us in
    let prog := rounds_prog rounds in
    (* every execution ends *)
    (forall eager, exists N, forall n g, run world prog init eager n g -> (n <= N)%nat) /\
    (forall eager n g, run world prog init eager n g -> ~ done world prog g -> exists g', step world prog eager g g') /\
    (* when it has ended, every request has completed, once *)
    (forall eager g, ends world rounds init eager g ->
       NoDup (glog g) /\
       forall v r i, In (v, r, i) (glog g) <->
         In v world /\ exists a, nth_error (request_array (nth r (prog v) [])) i = Some a /\ a <> ANull) /\
    (* and every worker has its blocks of the sequential outputs and gradients of all
       the passes, and nothing else *)
    forall eager g, ends world rounds init eager g ->
      forall idx v, worker_at P idx v -> Forall2 teq (h_hist (wdata (gw g v))) (results_at idx facts).

Section Training.
  Context {R : CRing}.
  Notation hst := (@hst R).
  Variables (world : list Z) (P : part).
  Hypothesis HN : NoDup world.

  Lemma use_rounds_ok u a : used world P u a -> Forall (round_ok world eqH steq) (use_rounds (R := R) P u).
  Proof.
    intros (Hc & _). pose proof (chain_rounds_ok world P _ _ _ _ _ _ _ Hc) as F. rewrite Forall_forall in F.
    unfold use_rounds. cbn [app]. constructor; [apply load_ok|]. apply Forall_app. split.
    { apply Forall_flat_map, Forall_forall. intros st Hst. now apply F. }
    constructor; [apply keep_result_ok|]. constructor; [apply load_ok|]. apply Forall_app. split.
    { apply Forall_flat_map, Forall_forall. intros st Hst. apply in_rev in Hst. now apply F. }
    constructor; [apply keep_result_ok|constructor].
  Qed.

  Lemma use_run u a S0 : used world P u a -> forall idx v, worker_at P idx v ->
    exists dx y, h_hist (sync_rounds (use_rounds (R := R) P u) S0 v) = dx :: y :: h_hist (S0 v) /\
      teq dx (block (fa_in a) idx (fa_dX a)) /\ teq y (block (fa_out a) idx (fa_Y a)).
  Proof.
    intros (Hc & Hx & Hy).
    set (S1 := sync_rounds [load_round (use_x u)] S0).
    destruct (chain_run world P _ _ _ _ _ _ _ Hc S1 Hx) as (es & A1 & A2 & A3). cbv zeta in A1, A2, A3.
    set (S2 := sync_rounds (flat_map (stage_forward P) (use_net u)) S1) in *.
    set (S3 := sync_rounds [worker_step keep_result] S2).
    set (S4 := sync_rounds [load_round (use_dy u)] S3).
    destruct (A3 S4 (fun v => h_t (S2 v) :: h_hist (S0 v))) as [B1 B2].
    { exact Hy. }
    { intros idx v Hv. change (h_t (S2 v) :: h_hist (S2 v) = (h_t (S2 v) :: h_hist (S0 v)) ++ es v). now rewrite (A2 idx v Hv). }
    set (S5 := sync_rounds (flat_map (stage_backward P) (rev (use_net u))) S4) in *.
    intros idx v Hv. exists (h_t (S5 v)), (h_t (S2 v)). split; [|split].
    - assert (E : sync_rounds (use_rounds P u) S0 = sync_rounds [worker_step keep_result] S5).
      { unfold S5, S4, S3, S2, S1, use_rounds, sync_rounds. now rewrite !fold_left_app. }
      rewrite E. change (h_t (S5 v) :: h_hist (S5 v) = h_t (S5 v) :: h_t (S2 v) :: h_hist (S0 v)). now rewrite (B2 idx v Hv).
    - exact (proj2 B1 idx v Hv).
    - exact (proj2 A1 idx v Hv).
  Qed.

  Lemma training_run us facts : Forall2 (used world P) us facts -> forall S0 idx v, worker_at P idx v ->
    exists l, h_hist (sync_rounds (training_rounds (R := R) P us) S0 v) = l ++ h_hist (S0 v) /\ Forall2 teq l (results_at idx facts).
  Proof.
    induction 1 as [|u a us facts Hu _ IH]; intros S0 idx v Hv; [exists []; split; [reflexivity|constructor]|].
    unfold training_rounds. cbn [flat_map]. rewrite sync_rounds_app. fold (training_rounds P us).
    destruct (IH (sync_rounds (use_rounds P u) S0) idx v Hv) as (l & E & F).
    destruct (use_run u a S0 Hu idx v Hv) as (dx & y & E' & T1 & T2).
    exists (l ++ [dx; y]). split; [now rewrite E, E', <- app_assoc|].
    unfold results_at. cbn [rev]. rewrite flat_map_app. apply Forall2_app; [exact F|]. cbn. auto.
  Qed.
End Training.

Lemma C58_proof : C58_statement.
Proof.
  intros R world P us facts init HN Hin HU Hi rounds prog.
  assert (HA : async_ok world eqH rounds init).
  { apply (rounds_async world eqH steq); [apply eqH_equiv|exact _|exact HN|].
    unfold rounds, training_rounds. apply Forall_flat_map, Forall_forall. intros u Hu.
    assert (Ha : exists a, used world P u a).
    { clear - HU Hu. induction HU as [|u' a us facts H1 _ IH]; [destruct Hu|]. destruct Hu as [->|Hu]; eauto. }
    destruct Ha as [a Ha]. exact (use_rounds_ok world P u a Ha). }
  split; [exact (ao_bounded _ _ _ _ HA)|]. split; [exact (ao_progress _ _ _ _ HA)|]. split.
  - intros eager g (n & Hr & Hd). destruct (ao_log _ _ _ _ HA eager n g Hr Hd) as [L1 L2].
    split; auto. intros v r i. rewrite L2, request_at_array. reflexivity.
  - intros eager g (n & Hr & Hd) idx v Hv.
    pose proof (ao_result _ _ _ _ HA eager n g v Hr Hd (Hin v (worker_at_In _ _ _ Hv))) as E.
    destruct (training_run world P us facts HU init idx v Hv) as (l & El & Fl).
    fold rounds in El. rewrite Hi, app_nil_r in El.
    destruct E as [_ _ _ E]. rewrite El in E. clear - E Fl. revert E Fl.
    generalize (h_hist (wdata (gw g v))) (results_at idx facts). intros l1 l2 E. revert l2.
    induction E as [|x y l1 l' Hxy E IH]; intros l2 Fl; inversion Fl; subst; constructor; auto.
    eapply teq_trans; [apply steq_teq; exact Hxy|auto].
Qed.

Theorem C58_networks_of_layers : C58_statement.
Proof. exact C58_proof. Qed.

(** * The gradients are the gradients

    [dX] is the derivative of the output along any direction, against [dY]. *)
Definition C58_chain_rule_statement : Prop :=
  forall (R : CRing) (world : list Z) (P : part) (L L' : layout) (net : list (@stage R)) (X Y dY dX X' Y' : tensor R),
    chain world P L X net L' Y dY dX -> moves X net X' Y' -> tshape X' = tshape X ->
    inner Y' dY = inner X' dX.

Section Rule.
  Context {R : CRing}.
  Add Ring R_rule : (rth R).
  Variables (world : list Z) (P : part).

  Lemma window_count_unique n k s p d a b : window_count n k s p d a -> window_count n k s p d b -> a = b.
  Proof. 
    intros [A1 A2] [B1 B2]. destruct (Z.lt_trichotomy a b) as [H|[H|H]]; auto; exfalso.
    - apply (B2 a A1), (A2 a A1) in H. lia.
    - apply (A2 b B1), (B2 b B1) in H. lia.
  Qed.

  Lemma counts_unique xs w ys zs : counts xs w ys -> counts xs w zs -> ys = zs.
  Proof.
    intros [A1 A2] [B1 B2]. apply (nth_ext _ _ 0 0); [congruence|]. intros j Hj. rewrite A1 in Hj.
    exact (window_count_unique _ _ _ _ _ _ _ (A2 j Hj) (B2 j Hj)).
  Qed.

  Lemma value_at_teq (X X2 : tensor R) v g : teq X2 X -> value_at X2 v g = value_at X v g.
  Proof.
    intros [E V]. unfold value_at. rewrite E. destruct (inside (tshape X) g) eqn:Ei; auto.
    apply V. rewrite E. now apply inside_spec.
  Qed.

  Lemma sequential_teq (f : @kernel R) cout value w X X2 Y Y2 : teq X2 X -> kernel_of_values f ->
    is_sequential f cout value w X Y -> is_sequential f cout value w X2 Y2 -> teq Y2 Y.
  Proof.
    intros E Hf (b & c & xs & ys & EG & EY & Hc & _ & _ & _ & HY) (b2 & c2 & xs2 & ys2 & EG2 & EY2 & Hc2 & _ & _ & _ & HY2).
    pose proof (proj1 E) as Es. rewrite EG, EG2 in Es. injection Es as -> -> ->.
    pose proof (counts_unique _ _ _ _ Hc Hc2) as <-. split; [congruence|].
    intros i Hi. pose proof Hi as Hi'. rewrite EY2 in Hi'.
    destruct i as [|b' [|c' o]]; [inversion Hi'|inversion Hi' as [|? ? ? ? ? Hi'']; inversion Hi''|].
    rewrite HY2, HY by (auto; now rewrite EY, <- EY2). apply Hf. intros ch t. now apply value_at_teq.
  Qed.

  Lemma chain_rule L X net L' Y dY dX : chain world P L X net L' Y dY dX ->
    forall (X2 X' Y' : tensor R), teq X2 X -> moves X2 net X' Y' -> tshape X' = tshape X -> inner Y' dY = inner X' dX.
  Proof.
    induction 1 as [L X dY EX ED|L X w f cout K shape Y1 net L' Y dY D HG EX HS HA HV HC HQ Hn HI Hch IH
                    |L X w choose value shape Y1 net L' Y dY D HG EX HS HC HQ HI Hch IH|L X act slope net L' Y dY D EX Hch IH];
      intros X2 X' Y' E2 M Es; inversion M; subst; clear M.
    - reflexivity.
    - match goal with H : is_sequential _ _ _ _ X2 ?Z, H' : tshape ?Z' = tshape ?Z, H'' : forall b c' o, _ |- _ =>
        rename H into Q2; rename H' into S2; rename H'' into V2; rename Z into Yb; rename Z' into Yt end.
      pose proof (sequential_teq f cout rzero w X X2 Y1 Yb E2 HV HQ Q2) as EY.
      destruct (chain_shapes world P _ _ _ _ _ _ _ Hch) as (_ & _ & _ & E4).
      rewrite (IH Yb Yt Y' EY) by (auto; rewrite S2; apply EY).
      rewrite <- Es.
      refine (sequential_adjoint K (fun c c' g => sumf (zrange c) (fun ch => sumf (indices (w_kernel w)) (fun t => rmul (K c c' ch t) (g ch t))))
        cout w X' Yt D (fun _ _ _ _ => eq_refl) _ _); [|rewrite E4, S2; symmetry; apply EY].
      destruct HQ as (b & c & xs & ys & EG & EYs & Hcnt & Hb & Hc0 & Hys & _).
      exists b, c, xs, ys. split; [congruence|]. split; [rewrite S2, (proj1 EY); exact EYs|].
      split; [exact Hcnt|]. do 3 (split; [assumption|]).
      intros b' c' o _. rewrite V2. rewrite (proj1 E2), EG. reflexivity.
    - match goal with H : is_sequential _ _ _ _ X2 ?Z, H' : tshape ?Z' = tshape ?Z, H'' : forall b c o, _ |- _ =>
        rename H into Q2; rename H' into S2; rename H'' into V2; rename Z into Yb; rename Z' into Yt end.
      assert (HV : kernel_of_values (pool_kernel (chosen choose))).
      { intros c c' g g' E. unfold pool_kernel. apply (chosen_local w choose HC). auto. }
      pose proof (sequential_teq _ _ value w X X2 Y1 Yb E2 HV HQ Q2) as EY.
      destruct (chain_shapes world P _ _ _ _ _ _ _ Hch) as (_ & _ & _ & E4).
      rewrite (IH Yb Yt Y' EY) by (auto; rewrite S2; apply EY).
      destruct HQ as (b & c & xs & ys & EG & EYs & Hcnt & Hb & Hc0 & Hys & _).
      rewrite <- (picked_adjoint choose value w X X' D b c xs ys) by congruence.
      apply inner_teq_l. split.
      + cbn [tshape picked]. rewrite E4, S2. apply EY.
      + intros i Hi. rewrite S2, (proj1 EY), EYs in Hi.
        destruct i as [|b' [|c' o]]; [inversion Hi|inversion Hi as [|? ? ? ? ? Hi'']; inversion Hi''|].
        rewrite V2. cbn [picked tat]. rewrite (proj1 E2). do 4 f_equal. unfold seen_choice. apply HC. intros t _. unfold seen_values.
        rewrite (proj1 E2). now apply value_at_teq.
    - match goal with H : moves _ net _ Y' |- _ => rename H into M end.
      assert (EA : teq (mkt (tshape X2) (fun i => act (tat X2 i))) (mkt (tshape X) (fun i => act (tat X i)))).
      { split; [apply E2|]. cbn [tshape tat]. intros i Hi. f_equal. now apply E2. }
      rewrite (IH _ _ Y' EA M) by (cbn [tshape]; apply E2).
      unfold inner. cbn [tshape tat]. rewrite Es, (proj1 E2). apply sumf_ext. intros i Hi. apply in_indices in Hi.
      rewrite (proj2 E2 i) by (now rewrite (proj1 E2)). ring.
  Qed.
End Rule.

Lemma C58_chain_rule_proof : C58_chain_rule_statement.
Proof.
  intros R world P L L' net X Y dY dX X' Y' Hc M E. apply (chain_rule world P L X net L' Y dY dX Hc X X' Y'); auto. split; reflexivity.
Qed.

Theorem C58_chain_rule : C58_chain_rule_statement.
Proof. exact C58_chain_rule_proof. Qed.

(** A convolution, a ReLU and a max pool (kernel 3, stride 2, padding 1) over three
    workers of four, then the pool alone on another tensor. *)
Definition ch_pw : window := mkwindow [3] [2] [1] [1].
Definition ch_choose : @choice Zring := @first_max Zring Z.gtb ch_pw.
Definition ch_f : @kernel Zring := conv_kernel cv_w 2 1 (cv_weight 10) (Some (cv_bias 10)).
Definition ch_relu (a : Zring) : Zring := Z.max 0 a.
Definition ch_step (a : Zring) : Zring := if 0 <? a then 1 else 0.
Definition ch_conv : @stage Zring := SWindow cv_w ch_f (fun _ => 2) (0 : car Zring) (BLinear fx_K) cv_shape.
Definition ch_pool : @stage Zring :=
  SWindow ch_pw (pool_kernel (chosen ch_choose)) (fun c => c) (-1000 : car Zring) (BMax ch_choose) cv_shape.

Definition ch_window (w : window) (value : Zring) (G : tensor Zring) (f : @kernel Zring) (out : list Z) : tensor Zring :=
  @mkt Zring out (fun i =>
    match i with
    | b' :: c' :: o => f 2 c' (fun ch t => value_at G value (b' :: ch ::
        vec 1 (fun j => nth j (w_stride w) 0 * nth j o 0 - nth j (w_padding w) 0 + nth j (w_dilation w) 0 * nth j t 0)))
    | _ => 0
    end).
Definition ch_X : tensor Zring := @mkt Zring [1; 2; 10] (fun i => nth 2 i 0 * nth 2 i 0 mod 7 - 3 * nth 1 i 0 - 2).
Definition ch_Y1 := ch_window cv_w 0 ch_X ch_f [1; 2; 10].
Definition ch_Y2 : tensor Zring := @mkt Zring [1; 2; 10] (fun i => ch_relu (tat ch_Y1 i)).
Definition ch_Y := ch_window ch_pw (-1000) ch_Y2 (pool_kernel (chosen ch_choose)) [1; 2; 5].
Definition ch_dY : tensor Zring := @mkt Zring [1; 2; 5] (fun i => 10 * nth 1 i 0 + nth 2 i 0 + 1).
Definition ch_D2 := max_gradient ch_choose (-1000 : car Zring) ch_pw ch_Y2 ch_dY.
Definition ch_D1 : tensor Zring := @mkt Zring [1; 2; 10] (fun i => tat ch_D2 i * ch_step (tat ch_Y1 i)).
Definition ch_dX := input_gradient fx_K cv_w [1; 2; 10] ch_D1.
Definition ch_X' : tensor Zring := @mkt Zring [1; 2; 10] (fun i => nth 1 i 0 - nth 2 i 0).
Definition ch_Z := ch_window ch_pw (-1000) cv_G (pool_kernel (chosen ch_choose)) [1; 2; 5].
Definition ch_out : layout := balanced [1; 2; 5] [1; 1; 3].
Definition ch_block (L : layout) (G : tensor Zring) (v : Z) : tensor Zring :=
  if v =? 9 then cv_x 9 else block L [0; 0; v - 10] G.
Definition ch_uses : list (@use Zring) :=
  [mkuse [ch_conv; SPoint ch_relu ch_step; ch_pool] (ch_block cv_L ch_X) (ch_block ch_out ch_dY);
   mkuse [ch_pool] (ch_block cv_L cv_G) (ch_block ch_out ch_dY)].
Definition ch_facts : list (@fact Zring) :=
  [mkfact cv_L ch_X ch_out ch_Y ch_dY ch_dX;
   mkfact cv_L cv_G ch_out ch_Z ch_dY (max_gradient ch_choose (-1000 : car Zring) ch_pw cv_G ch_dY)].
Definition ch_all (t : tensor Zring) : list Z * list Z := (tshape t, map (tat t) (indices (tshape t))).

Lemma ch_pool_chain (G D : tensor Zring) : tshape G = [1; 2; 10] -> tshape D = [1; 2; 5] ->
  chain cv_world cv_P cv_L G [ch_pool] ch_out (ch_window ch_pw (-1000) G (pool_kernel (chosen ch_choose)) [1; 2; 5]) D
    (max_gradient ch_choose (-1000 : car Zring) ch_pw G D).
Proof.
  intros EG ED. eapply (chain_max (R := Zring)) with (Y1 := ch_window ch_pw (-1000) G (pool_kernel (chosen ch_choose)) [1; 2; 5]).
  - split; [repeat constructor; simpl; lia|]. split; [simpl; tauto|].
    split; [repeat split; try discriminate; repeat constructor; simpl; lia|].
    split; [repeat constructor; lia|]. split; [reflexivity|]. split; [reflexivity|].
    repeat split; repeat constructor; lia.
  - now rewrite EG.
  - intros idx v Hv. destruct (cv_workers _ _ Hv) as [-> [-> |[-> | ->]]]; reflexivity.
  - apply first_max_local. repeat split; repeat constructor; lia.
  - exists 1, 2, [10], [5]. split; [exact EG|]. split; [reflexivity|].
    split. { split; [reflexivity|]. intros [|j] Hj; cbn in Hj; [|lia]. cbn. split; [lia|]. unfold window_fits. intros. lia. }
    split; [lia|]. split; [lia|]. split; [repeat constructor|]. reflexivity.
  - unfold out_counts. rewrite EG. intros [|[|[|j]]] Hj; cbn in Hj; [| | |lia].
    + intros [|i] Hi; vm_compute in Hi; [|lia]. repeat split; intros; vm_compute; (reflexivity || discriminate).
    + intros [|i] Hi; vm_compute in Hi; [|lia]. repeat split; intros; vm_compute; (reflexivity || discriminate).
    + intros [|[|[|i]]] Hi; vm_compute in Hi; [| | |lia]; repeat split; intros; vm_compute; (reflexivity || discriminate).
  - constructor; [reflexivity|exact ED].
Qed.

Lemma ch_chain : chain cv_world cv_P cv_L ch_X [ch_conv; SPoint ch_relu ch_step; ch_pool] ch_out ch_Y ch_dY ch_dX.
Proof.
  unfold ch_dX, ch_conv. change [1; 2; 10] with (tshape ch_X). destruct C30_convolutions_example as (A & _).
  eapply (chain_linear (R := Zring)) with (Y1 := ch_Y1).
  - exact A.
  - reflexivity.
  - intros idx v Hv. destruct (cv_workers _ _ Hv) as [-> [-> |[-> | ->]]]; reflexivity.
  - exists fx_f, (fun c => tat (cv_bias 10) [c]). split; [apply C51_example|]. split; [left; reflexivity|].
    intros c c' g _. unfold ch_f, fx_f, conv_kernel. cbn [radd rzero Zring]. lia.
  - intros c c' g g' E. unfold ch_f, conv_kernel. f_equal. apply sumf_ext. intros j _. apply sumf_ext. intros t _. now rewrite E.
  - left. reflexivity.
  - exists 1, 2, [10], [10]. split; [reflexivity|]. split; [reflexivity|].
    split. { split; [reflexivity|]. intros [|j] Hj; cbn in Hj; [|lia]. cbn. split; [lia|]. unfold window_fits. intros. lia. }
    split; [lia|]. split; [lia|]. split; [repeat constructor|]. reflexivity.
  - repeat constructor; lia.
  - exact (proj1 (proj2 (proj2 (proj2 (proj2 (proj2 (proj2 C30_convolutions_example))))))).
  - apply (chain_point (R := Zring)); [reflexivity|]. exact (ch_pool_chain ch_Y2 ch_dY eq_refl eq_refl).
Qed.

Example C58_example :
  NoDup cv_world /\ (forall v, In v (p_ranks cv_P) -> In v cv_world) /\ Forall2 (used cv_world cv_P) ch_uses ch_facts /\
  (forall v, h_hist (cv_zero v) = []) /\
  map (tat ch_Y1) (indices [1; 2; 10]) =
    [-13; 3; 3; 0; 8; -1; -13; -14; 3; 9; -36; -18; -10; -9; -1; -14; -34; -47; -18; 2] /\
  map (tat ch_Y) (indices [1; 2; 5]) = [3; 3; 8; 0; 9; 0; 0; 0; 0; 2] /\
  map (tat ch_dX) (indices [1; 2; 10]) = [3; 6; 9; 3; 6; 9; 0; 0; 50; 70; 0; 3; 6; 0; 3; 6; 0; 0; 30; 50] /\
  map ch_all (h_hist (sync_rounds (training_rounds cv_P ch_uses) cv_zero 11)) = map ch_all (results_at [0; 0; 1] ch_facts).
Proof.
  split; [repeat constructor; simpl; lia|]. split; [simpl; tauto|]. split.
  { assert (B : forall L G, tshape G = layout_shape L -> holds_blocks cv_P L G (ch_block L G)).
    { intros L G E. split; [exact E|]. intros idx v Hv. destruct (cv_workers _ _ Hv) as [-> [-> |[-> | ->]]]; apply teq_refl. }
    constructor; [|constructor; [|constructor]].
    - split; [exact ch_chain|]. split; apply B; reflexivity.
    - split; [exact (ch_pool_chain cv_G ch_dY eq_refl eq_refl)|]. split; apply B; reflexivity. }
  repeat split; vm_compute; reflexivity.
Qed.

Definition ch_Y1' : tensor Zring := @mkt Zring [1; 2; 10] (fun i =>
  match i with
  | b :: c' :: o => sumf (R := Zring) (zrange 2) (fun ch => sumf (R := Zring) (indices [3]) (fun t =>
      fx_K 2 c' ch t * value_at ch_X' 0 (b :: ch :: seen_point 1 cv_w o t)))
  | _ => 0
  end).
Definition ch_Y2' : tensor Zring := @mkt Zring [1; 2; 10] (fun i => ch_step (tat ch_Y1 i) * tat ch_Y1' i).
Definition ch_Y' : tensor Zring := @mkt Zring [1; 2; 5] (fun i =>
  match i with
  | b :: c :: o => value_at ch_Y2' 0 (b :: c :: seen_point 1 ch_pw o (seen_choice ch_choose (-1000 : car Zring) ch_pw ch_Y2 b c o))
  | _ => 0
  end).

Example C58_chain_rule_example :
  chain cv_world cv_P cv_L ch_X [ch_conv; SPoint ch_relu ch_step; ch_pool] ch_out ch_Y ch_dY ch_dX /\
  moves ch_X [ch_conv; SPoint ch_relu ch_step; ch_pool] ch_X' ch_Y' /\ tshape ch_X' = tshape ch_X /\
  map (tat ch_Y') (indices [1; 2; 5]) = [-10; -10; -37; 0; -34; 0; 0; 0; 0; -98] /\
  inner ch_Y' ch_dY = -1781 /\ inner ch_X' ch_dX = -1781.
Proof.
  split; [exact ch_chain|]. split; [|repeat split; vm_compute; reflexivity].
  eapply (moves_linear (R := Zring)) with (Y1 := ch_Y1) (Y1' := ch_Y1').
  - exists 1, 2, [10], [10]. split; [reflexivity|]. split; [reflexivity|].
    split. { split; [reflexivity|]. intros [|j] Hj; cbn in Hj; [|lia]. cbn. split; [lia|]. unfold window_fits. intros. lia. }
    split; [lia|]. split; [lia|]. split; [repeat constructor|]. reflexivity.
  - reflexivity.
  - reflexivity.
  - apply (moves_point (R := Zring)).
    eapply (moves_max (R := Zring)) with (Y1 := ch_Y) (Y1' := ch_Y'); [|reflexivity|reflexivity|constructor].
    exists 1, 2, [10], [5]. split; [reflexivity|]. split; [reflexivity|].
    split. { split; [reflexivity|]. intros [|j] Hj; cbn in Hj; [|lia]. cbn. split; [lia|]. unfold window_fits. intros. lia. }
    split; [lia|]. split; [lia|]. split; [repeat constructor|]. reflexivity.
Qed.

Print Assumptions C58_networks_of_layers.
Print Assumptions C58_chain_rule.
