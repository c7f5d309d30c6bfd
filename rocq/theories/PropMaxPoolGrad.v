(** The backward pass of max pooling on a partitioned tensor: C57. *)

From Verif Require Import Prelude SpecIndex SpecLayout SpecPartition SpecHalo ModelSlicing ModelDecomposition
  ModelPartition ProofSlicing ProofDecomposition ProofPartition Ring Tensor ModelCollectives PropCollectives PropExchange
  ModelUtilities PropUtilities Blocks P2P Rounds ModelRepartition ProofTransfer PropRepartition ModelHaloMixin ProofHaloMixin PropHaloMixin
  ModelHaloExchange PropHaloExchange ModelFeatureLayer SpecFeature ProofFeatureLayer PropFeatureLayer
  PropFeatureConv PropFeatureCommon ModelGradients ProofGradients PropUpsampleGrad ModelFeatureGrad SpecFeatureGrad ProofFeatureGrad
  PropFeatureGrad ModelMaxPoolGrad SpecMaxPoolGrad ProofMaxPoolGrad.
Local Open Scope Z_scope.

Definition C57_statement : Prop :=
  forall (R : CRing) (world : list Z) (P : part) (L : layout) (w : window)
    (choose : @choice R) (value : R) (G Y dY : tensor R) (x dy : Z -> tensor R),
    feature_given world P L w -> choice_local w choose ->
    (* the layer as in C30, on blocks of G; the cotangents are blocks of dY *)
    is_sequential (pool_kernel (chosen choose)) (fun c => c) value w G Y ->
    within L w (out_counts G Y) -> holds_blocks P L G x ->
    tshape dY = tshape Y -> holds_blocks P (balanced (tshape Y) (p_shape P)) dY dy ->
    let shape v := tshape (x v) in
    let arg := halo_argument P w value shape x in
    let plan := halo_plan P w shape in
    let layer := history_rounds P (fun v => tshape (arg v)) (fun v => u_recv (plan v)) (fun v => u_send (plan v)) in
    (forall v, In v world -> halo_input P w value shape x v = Ok (arg v)) /\
    halo_safe R world P (fun v => tshape (arg v)) (fun v => u_recv (plan v)) (fun v => u_send (plan v)) /\
    forall pre init eager gf, same_calls P arg pre -> ends world (layer (pre ++ [HForward arg])) init eager gf ->
      let back := max_back_argument P w choose shape (halo_result gf) dy in
      (* the outputs are the blocks of the sequential output *)
      (forall idx v, worker_at P idx v ->
         exists t, feature_output P w (pool_kernel (chosen choose)) (fun c => c) shape x (halo_result gf) v = Ok t /\
                   teq t (block (balanced (tshape Y) (p_shape P)) idx Y)) /\
      (* whatever was done in between, so are the gradients of the sequential one *)
      (forall v, In v world -> max_cotangent P w choose shape (halo_result gf) dy v = Ok (back v)) /\
      forall pre' init' eager' gb, same_calls P arg pre' -> ends world (layer (pre' ++ [HBackward back])) init' eager' gb ->
        (forall idx v, worker_at P idx v ->
           exists t, feature_gradient P w shape dy (halo_result gb) v = Ok t /\
                     teq t (block L idx (max_gradient choose value w G dY))) /\
        (forall v, In v world -> ~ In v (p_ranks P) -> feature_gradient P w shape dy (halo_result gb) v = Ok (dy v)).

Section Main.
  Context {R : CRing}.
  Add Ring R_pool : (rth R).
  Variables (world : list Z) (P : part) (L : layout) (w : window).
  Hypothesis HG : feature_given world P L w.
  Variables (b c : Z) (xs ys : list Z).
  Hypothesis EL : layout_shape L = b :: c :: xs.
  Let out := b :: c :: ys.
  Hypothesis Hcnt : counts xs w ys.
  Hypothesis Hb : 0 < b.
  Hypothesis Hc0 : 0 < c.
  Hypothesis Hys : Forall (fun n => 0 < n) ys.
  Hypothesis Hin : within L w out.
  Let gp := 0 :: 0 :: w_padding w.
  Let Lp := pad_layout L gp.
  Let H := feature_halos L w.
  Variables (sh : Z -> list Z) (recv send : Z -> list (Z * Z)).
  Hypothesis HP : planned P Lp H sh recv send.

  (** What worker [v] hands to torch. *)
  Definition local_in (idx : list Z) (e : tensor R) : tensor R := slice_tensor e (needed_of L w idx).

  (** Every offset of every window there shows what the sequential layer sees. *)
  Definition shows (idx : list Z) (e : tensor R) (value : R) (X : tensor R) : Prop :=
    exists b0 c0 xs0, tshape e = b0 :: c0 :: xs0 /\
      b0 :: c0 :: plain_out w xs0 = block_shape (balanced out (p_shape P)) idx /\
      forall b' c' o t, valid_index (block_shape (balanced out (p_shape P)) idx) (b' :: c' :: o) -> valid_index (w_kernel w) t ->
        forall b1 c1 o1, vadd (block_lo (balanced out (p_shape P)) idx) (b' :: c' :: o) = b1 :: c1 :: o1 ->
        tat e (b' :: c' :: window_point w o t) = value_at X value (b1 :: c1 :: seen_point (length xs) w o1 t).

  Lemma windows_seen value (X : tensor R) (x : Z -> tensor R) pre init eager g idx v :
    tshape X = b :: c :: xs -> holds_blocks P L X x -> Forall (call_ok P Lp H) pre ->
    ends world (history_rounds P sh recv send (pre ++ [HForward (halo_argument P w value (fun u => tshape (x u)) x)])) init eager g ->
    worker_at P idx v -> shows idx (local_in idx (halo_result g v)) value X.
  Proof.
    intros EX HBx Hpre Hend Hv. set (e := local_in idx (halo_result g v)).
    assert (HS : forall i u, worker_at P i u -> tshape (x u) = block_shape L i).
    { intros i u Hu. destruct HBx as [_ Hx]. exact (proj1 (Hx i u Hu)). }
    assert (K : forall t, valid_index (w_kernel w) t -> exists b0 c0 xs0, tshape e = b0 :: c0 :: xs0 /\
      b0 :: c0 :: plain_out w xs0 = block_shape (balanced out (p_shape P)) idx /\
      forall b' c' o, valid_index (block_shape (balanced out (p_shape P)) idx) (b' :: c' :: o) ->
        forall b1 c1 o1, vadd (block_lo (balanced out (p_shape P)) idx) (b' :: c' :: o) = b1 :: c1 :: o1 ->
        tat e (b' :: c' :: window_point w o t) = value_at X value (b1 :: c1 :: seen_point (length xs) w o1 t)).
    { intros t Ht. set (f := @pool_kernel R (fun g : list Z -> R => g t)).
      destruct (C30_pooling_kernels R w (fun g : list Z -> R => g t)) as [K1 K2]; [intros g0 g0' Eg; now apply Eg|].
      set (Yt := @mkt R out (fun i => match i with
        | b' :: c' :: o => value_at X value (b' :: c' :: seen_point (length xs) w o t) | _ => rzero end)).
      destruct (output_by world P L w f (fun c => c) value X Yt x HG K1 (or_intror K2) b c xs ys EX eq_refl Hcnt Hb Hc0 Hys
                  (fun b' c' o _ => eq_refl) HBx Hin sh recv send pre init eager g idx v HP Hpre Hend Hv) as (y & Ey & Ty & Vy).
      unfold feature_output in Ey. rewrite (fg_setup world P L w HG _ HS idx v Hv) in Ey. cbn [rbind u_needed] in Ey.
      fold (local_in idx (halo_result g v)) in Ey. fold e in Ey.
      destruct (sliding_shape _ _ _ _ _ Ey) as (b0 & c0 & xs0 & E0 & E1 & E2). exists b0, c0, xs0.
      split; auto. cbn [block tshape Yt] in Ty. split; [congruence|].
      intros b' c' o Hp b1 c1 o1 E. specialize (E2 b' c' o). unfold f, pool_kernel in E2. rewrite <- E2. rewrite Vy by (rewrite Ty; exact Hp).
      cbn [block tat Yt tshape]. now rewrite E. }
    destruct (indices_cons w (proj2 (proj2 (proj2 (proj2 (proj2 (proj2 HG))))))) as (t0 & l & El).
    destruct (K t0) as (b0 & c0 & xs0 & E0 & E1 & _); [apply in_indices; rewrite El; now left|].
    exists b0, c0, xs0. split; auto. split; auto. intros b' c' o t Hp Ht b1 c1 o1 E.
    destruct (K t Ht) as (_ & _ & _ & _ & _ & V). exact (V b' c' o Hp b1 c1 o1 E).
  Qed.

  Section Back.
    Variables (choose : @choice R) (value : R) (G dY : tensor R) (x dy : Z -> tensor R) (back fwd : Z -> tensor R).
    Hypothesis HC : choice_local w choose.
    Hypothesis EG : tshape G = b :: c :: xs.
    Hypothesis HB : holds_blocks P L G x.
    Hypothesis ED : tshape dY = out.
    Hypothesis HD : holds_blocks P (balanced out (p_shape P)) dY dy.
    Hypothesis HO : forall v, In v world -> ~ In v (p_ranks P) -> tshape (dy v) = tshape (x v).
    Hypothesis HF : forall idx v, worker_at P idx v -> tshape (fwd v) = padded_shape Lp H idx /\ shows idx (local_in idx (fwd v)) value G.
    Hypothesis HK : forall idx v, worker_at P idx v ->
      back v = slice_backward (padded_shape Lp H idx) (slice_of L w idx)
        (max_scatter (max_positions choose w (local_in idx (fwd v))) (tshape (local_in idx (fwd v))) (dy v)).
    Hypothesis HKi : forall v, ~ In v (p_ranks P) -> back v = dy v.
    Variables (pre' : list (@call R)) (init' : Z -> @hst R) (eager' : Z -> Z -> Z -> nat -> bool) (gb : @gst (@hst R) (tensor R)).
    Hypothesis Hp' : Forall (call_ok P Lp H) pre'.
    Hypothesis Hb' : ends world (history_rounds P sh recv send (pre' ++ [HBackward back])) init' eager' gb.
    Let shape v := tshape (x v).

    Lemma mp_shapes idx v : worker_at P idx v -> shape v = block_shape L idx.
    Proof. intros Hv. destruct HB as [_ Hx]. exact (proj1 (Hx idx v Hv)). Qed.

    Definition mp_held (X : tensor R) (v : Z) : tensor R :=
      mkt (tshape (x v)) (fun i => match index_in P v with Some idx => tat (block L idx X) i | None => rzero end).

    Lemma mp_held_blocks X : tshape X = b :: c :: xs -> holds_blocks P L X (mp_held X).
    Proof.
      intros EX. split; [congruence|]. intros idx v Hv. split; [exact (mp_shapes idx v Hv)|]. intros p _. cbn [mp_held tat].
      apply index_in_spec in Hv; [|apply HG]. now rewrite Hv.
    Qed.

    Lemma mp_counts : counts (layout_shape L) (full_window (length L) w) out.
    Proof.
      set (Z0 := mkt (b :: c :: xs) (fun _ => rzero) : tensor R).
      exact (g_counts world P L w (fun _ _ _ => rzero) rzero Z0 (mkt out (fun _ => rzero)) (mp_held Z0) HG b c xs ys eq_refl Hcnt Hb Hc0
        (fun _ _ _ _ => eq_refl) (mp_held_blocks Z0 eq_refl)).
    Qed.

    Lemma mp_out_ok : layout_ok (balanced out (p_shape P)) /\ layout_workers (balanced out (p_shape P)) = p_shape P.
    Proof.
      assert (HPp : part_ok P) by apply HG. destruct HPp as (_ & _ & Hpos & _). split.
      - apply balanced_ok; auto. unfold out. constructor; [lia|]. constructor; [lia|]. eapply Forall_impl; [|exact Hys]. cbn. lia.
      - apply balanced_workers; auto. unfold out. cbn [length]. destruct Hcnt as [El _]. rewrite El.
        destruct HG as (_ & _ & _ & _ & HW & Hl & _). rewrite <- HW, layout_workers_length.
        rewrite <- (layout_shape_length L), EL. reflexivity.
    Qed.

    (** The gradient of a worker's torch layer, paired with what it sees of [X]. *)
    Lemma mp_local (X : tensor R) (e : tensor R) idx v : worker_at P idx v ->
      tshape X = b :: c :: xs -> tshape e = padded_shape Lp H idx -> shows idx (local_in idx e) rzero X ->
      inner e (back v) = inner (block (balanced out (p_shape P)) idx (picked choose value w G X out)) (dy v) /\
      tshape (back v) = padded_shape Lp H idx.
    Proof.
      intros Hv EX Se (b0 & c0 & xs0 & E0 & E1 & V0). destruct (HF idx v Hv) as [Sf (b2 & c2 & xs2 & F0 & F1 & VF)].
      pose proof (proj1 Hv) as Hi.
      assert (Es : tshape (local_in idx (fwd v)) = tshape (local_in idx e)).
      { unfold local_in, slice_tensor. cbn [read_slice tshape]. now rewrite Sf, Se. }
      assert (E3 : (b2, c2, xs2) = (b0, c0, xs0)) by (rewrite F0, E0 in Es; injection Es as -> -> ->; reflexivity).
      injection E3 as -> -> ->.
      assert (Hsl : compute_nd_slice_shape (slice_of L w idx) = tshape (local_in idx e)).
      { unfold local_in, slice_tensor, slice_of. cbn [read_slice tshape]. now rewrite Se. }
      set (d := max_scatter (max_positions choose w (local_in idx (fwd v))) (tshape (local_in idx (fwd v))) (dy v)).
      assert (Sd : tshape (dy v) = b0 :: c0 :: plain_out w xs0).
      { destruct HD as [_ HD']. destruct (HD' idx v Hv) as [E _]. rewrite E. cbn [block tshape]. now rewrite E1. }
      destruct (slice_adjoint e d (slice_of L w idx)) as [S1 S2].
      { rewrite Se. rewrite (fg_slice_len world P L w HG idx Hi). symmetry. exact (fg_padded_len world P L w HG idx Hi). }
      { rewrite Se. exact (fg_slice_in world P L w HG shape mp_shapes idx Hi). }
      { unfold d. cbn [max_scatter tshape]. now rewrite Es. }
      rewrite (HK idx v Hv). fold d. rewrite Se in S1, S2. split; [|exact S1]. rewrite <- S2.
      replace (read_slice e (slice_of L w idx)) with (local_in idx e) by (unfold local_in, slice_tensor, slice_of; now rewrite Se).
      unfold d. rewrite Es. unfold max_positions.
      assert (Lx : length xs0 = nf w).
      { apply (f_equal (@length Z)) in E1. rewrite block_shape_length in E1.
        - cbn [length] in E1. rewrite plain_out_length in E1.
          pose proof (proj2 mp_out_ok) as HW. apply (f_equal (@length Z)) in HW. rewrite layout_workers_length in HW.
          destruct HG as (_ & _ & _ & _ & _ & Hl & _). unfold nf. lia.
        - pose proof (proj2 mp_out_ok) as HW. rewrite <- layout_workers_length, HW. symmetry. exact (Forall2_length _ _ _ Hi). }
      rewrite (scatter_adjoint (fun b' c' o => choose (fun k => tat (local_in idx (fwd v)) (b' :: c' :: window_point w o k)))
                 w b0 c0 xs0 (local_in idx e) (dy v)); auto; [|apply HG|intros; apply HC].
      unfold inner. cbn [block tshape tat]. rewrite Sd, E1. apply sumf_ext. intros i Hii. apply in_indices in Hii. f_equal.
      destruct i as [|b' [|c' o]]; [inversion Hii; rewrite <- E1 in *; discriminate|rewrite <- E1 in Hii; inversion Hii as [|? ? ? ? ? Hii']; inversion Hii'|].
      destruct mp_out_ok as [O1 O2].
      assert (Hq : valid_index out (vadd (block_lo (balanced out (p_shape P)) idx) (b' :: c' :: o))).
      { destruct HD as [E _]. rewrite ED in E. rewrite E at 1.
        apply layout_tiles_inside with (w := idx); auto; [rewrite O2; exact Hi|]. apply point_in_block; auto. rewrite O2. exact Hi. }
      destruct (vadd (block_lo (balanced out (p_shape P)) idx) (b' :: c' :: o)) as [|b1 [|c1 o1]] eqn:Eq;
        [inversion Hq|inversion Hq as [|? ? ? ? ? Hq']; inversion Hq'|].
      cbn [picked tat]. rewrite (V0 b' c' o _ Hii (proj1 HC _) b1 c1 o1 Eq). rewrite EG. cbn [skipn]. do 4 f_equal.
      unfold seen_choice. apply HC. intros t Ht. rewrite (VF b' c' o t Hii Ht b1 c1 o1 Eq). unfold seen_values. now rewrite EG.
    Qed.

    Definition mp_grad (v : Z) : tensor R := match feature_gradient P w shape dy (halo_result gb) v with Ok t => t | Raise _ => x v end.

    Lemma mp_pairing (X : tensor R) : tshape X = b :: c :: xs ->
      (forall v, In v world -> feature_gradient P w shape dy (halo_result gb) v = Ok (mp_grad v) /\ tshape (mp_grad v) = tshape (x v)) /\
      sumf (p_ranks P) (fun v => inner (mp_held X v) (mp_grad v)) = inner (picked choose value w G X out) dY.
    Proof.
      intros EX. destruct HG as (HN & HW & HPo & HLo & HWo & _).
      set (arg' := halo_argument P w rzero (fun v => tshape (mp_held X v)) (mp_held X)).
      set (init0 := fun _ : Z => @mkhst R (tzeros []) (tzeros []) (tzeros []) []). set (eager0 := fun (_ _ _ : Z) (_ : nat) => true).
      destruct (async_ends _ _ _ _ eager0 (halo_async world P Lp H sh recv send
         (fg_given world P L w HG shape mp_shapes) HP [HForward arg'] init0)) as [gf Hf].
      pose proof (mp_held_blocks X EX) as HBX.
      assert (HAi : forall v, ~ In v (p_ranks P) -> arg' v = mp_held X v).
      { intros v Hv. unfold arg', halo_argument, halo_input. pose proof (fg_inactive P w (fun v => tshape (mp_held X v)) v Hv) as E. rewrite E. reflexivity. }
      pose proof (ow_arg world P L w HG out (mp_held X) mp_shapes) as OW.
      assert (HL : forall idx v, worker_at P idx v -> tshape (halo_result gf v) = padded_shape Lp H idx /\
        shows idx (local_in idx (halo_result gf v)) rzero X).
      { intros idx v Hv. split; [|exact (windows_seen rzero X (mp_held X) [] _ _ gf idx v EX HBX (Forall_nil _) Hf Hv)].
        exact (proj1 (exchanged_by world P L w (fun _ _ _ => rzero) rzero X (mkt [] (fun _ => rzero)) (mp_held X) HG b c xs ys EX Hcnt Hb Hc0 Hys
          (fun _ _ _ _ => eq_refl) HBX Hin sh recv send [] _ _ gf idx v HP (Forall_nil _) Hf Hv)). }
      destruct (fg_exchange world P L w HG out mp_counts (g_ny b c ys Hb Hc0 Hys) shape mp_shapes _ _ _ HP [] pre' arg' back init0 init' eager0 eager' gf gb)
        as (Sh & St & Ad); auto.
      { intros idx v Hv. split; [exact (proj1 (proj2 (OW idx v Hv)))|].
        destruct (HL idx v Hv) as [A1 A2]. exact (proj2 (mp_local X (halo_result gf v) idx v Hv EX A1 A2)). }
      { intros v Hv Hn. rewrite HAi, HKi by auto. symmetry. cbn [mp_held tshape]. auto. }
      assert (Kv : forall v, In v world ->
        (feature_gradient P w shape dy (halo_result gb) v = Ok (mp_grad v) /\ tshape (mp_grad v) = tshape (x v)) /\
        inner (mp_held X v) (mp_grad v) = inner (arg' v) (halo_result gb v)).
      { intros v Hv. destruct (Sh v Hv) as [Sf Sb].
        destruct (in_dec Z.eq_dec v (p_ranks P)) as [Hr|Hr].
        - destruct (worker_at_exists P v HPo Hr) as [idx Hw]. destruct (OW idx v Hw) as (_ & Sa & Pa).
          destruct (HL idx v Hw) as [A1 A2].
          destruct (Pa (halo_result gb v)) as (d & Ed & Sd & Id).
          { rewrite Sb. exact (proj2 (mp_local X (halo_result gf v) idx v Hw EX A1 A2)). }
          assert (Eg : feature_gradient P w shape dy (halo_result gb) v = Ok d).
          { unfold shape. rewrite (ow_gradient world P L w HG x mp_shapes dy (halo_result gb) idx v Hw). exact Ed. }
          unfold mp_grad. rewrite Eg. split; [split; auto|]. symmetry. exact Id.
        - pose proof (fg_inactive P w shape v Hr) as E. destruct (St v Hv Hr) as [[F1 F2] [B1 B2]].
          rewrite HAi, HKi in * by auto.
          assert (Eg : feature_gradient P w shape dy (halo_result gb) v = Ok (dy v)) by (unfold feature_gradient; rewrite E; reflexivity).
          unfold mp_grad. rewrite Eg. split; [split; auto|]. unfold inner. apply sumf_ext. intros i _. congruence. }
      split; [intros v Hv; apply Kv; auto|].
      destruct mp_out_ok as [O1 O2].
      set (y := fun v => match index_in P v with Some idx => block (balanced out (p_shape P)) idx (picked choose value w G X out) | None => x v end).
      assert (Hy : holds_blocks P (balanced out (p_shape P)) (picked choose value w G X out) y).
      { split; [cbn [picked tshape]; exact (eq_trans (eq_sym ED) (proj1 HD))|]. intros idx v Hv. unfold y.
        apply index_in_spec in Hv; auto. rewrite Hv. apply teq_refl. }
      rewrite <- (inner_members P (balanced out (p_shape P)) (picked choose value w G X out) dY y dy HPo O1 O2 Hy HD).
      transitivity (world_inner world arg' (halo_result gb)).
      - unfold world_inner. rewrite (sum_world world (p_ranks P)); auto; [|apply HPo|].
        + apply sumf_ext. intros v Hv. apply Kv. auto.
        + intros v Hv Hr. rewrite HAi by auto. unfold inner. apply sumf_zero. intros i _. cbn [mp_held tat].
          apply index_in_none in Hr. rewrite Hr. ring.
      - rewrite <- Ad. unfold world_inner. rewrite (sum_world world (p_ranks P)); auto; [|apply HPo|].
        + apply sumf_ext. intros v Hv. destruct (worker_at_exists P v HPo Hv) as [idx Hw]. destruct (HL idx v Hw) as [A1 A2].
          rewrite (proj1 (mp_local X (halo_result gf v) idx v Hw EX A1 A2)). unfold y.
          pose proof Hw as Hw'. apply index_in_spec in Hw'; auto. now rewrite Hw'.
        + intros v Hv Hr. destruct (St v Hv Hr) as [[F1 F2] _]. unfold inner. apply sumf_zero. intros i _.
          rewrite F2, HAi by auto. cbn [mp_held tat]. apply index_in_none in Hr. rewrite Hr. ring.
    Qed.

    Lemma mp_blocks idx v : worker_at P idx v ->
      exists t, feature_gradient P w shape dy (halo_result gb) v = Ok t /\
                teq t (block L idx (max_gradient choose value w G dY)).
    Proof.
      intros Hv. destruct HG as (HN & HW & HPo & HLo & HWo & _).
      destruct (mp_pairing (mkt (b :: c :: xs) (fun _ => rzero)) eq_refl) as [Hd _].
      destruct (glue_holds P L mp_grad HPo HLo HWo) as [D HDg].
      { intros i u Hu. rewrite (proj2 (Hd u (HW u (worker_at_In _ _ _ Hu)))). exact (mp_shapes i u Hu). }
      assert (E : teq D (max_gradient choose value w G dY)).
      { pose proof HDg as [SD _]. split; [rewrite SD; cbn [max_gradient tshape]; congruence|]. intros q Hq. rewrite SD, EL in Hq.
        rewrite <- (unit_inner (b :: c :: xs) q D Hq).
        rewrite <- (inner_members P L (unit_at (b :: c :: xs) q) D _ _ HPo HLo HWo (mp_held_blocks (unit_at (b :: c :: xs) q) eq_refl) HDg).
        rewrite (proj2 (mp_pairing (unit_at (b :: c :: xs) q) eq_refl)).
        rewrite <- ED. rewrite (picked_adjoint choose value w G (unit_at (b :: c :: xs) q) dY b c xs ys EG eq_refl ED).
        apply unit_inner; auto. }
      exists (mp_grad v). split; [apply Hd; apply HW; now apply worker_at_In in Hv|].
      destruct HDg as [SD HDg]. eapply teq_trans; [apply HDg; exact Hv|]. eapply block_ext; eauto.
    Qed.
  End Back.
End Main.

Lemma max_inactive {R : CRing} P w (choose : @choice R) shape exchanged (dy : Z -> tensor R) v :
  ~ In v (p_ranks P) -> max_cotangent P w choose shape exchanged dy v = Ok (dy v).
Proof. intros Hv. unfold max_cotangent. pose proof (fg_inactive P w shape v Hv) as E. rewrite E. reflexivity. Qed.

Lemma C57_proof : C57_statement.
Proof.
  intros R world P L w choose value G Y dY x dy HG HC HQ HIn HB ED HD shape arg plan layer.
  pose proof HQ as (b & c & xs & ys & EG & EY & Hcnt & Hb & Hc0 & Hys & HY).
  unfold out_counts in HIn. rewrite EG, EY in HIn. cbn [nth skipn] in HIn.
  destruct (halo_started world P L w value G x HG HB) as [St Sa]. split; [exact St|]. split; [exact Sa|].
  intros pre init eager gf Hpre Hf back.
  assert (HPl : planned P (pad_layout L (0 :: 0 :: w_padding w)) (feature_halos L w) (fun v => tshape (arg v)) (fun v => u_recv (plan v)) (fun v => u_send (plan v)))
    by exact (g_planned world P L w value G x HG 0 0 [] HB).
  assert (HS : forall idx v, worker_at P idx v -> shape v = block_shape L idx).
  { intros idx v Hv. destruct HB as [_ Hx]. exact (proj1 (Hx idx v Hv)). }
  pose proof (g_calls world P L w value G x HG 0 0 [] HB) as Cl.
  assert (EL : layout_shape L = b :: c :: xs) by (rewrite <- EG; symmetry; apply HB).
  assert (HF : forall idx v, worker_at P idx v ->
    tshape (halo_result gf v) = padded_shape (pad_layout L (0 :: 0 :: w_padding w)) (feature_halos L w) idx /\
    shows P w b c xs ys idx (local_in L w idx (halo_result gf v)) value G).
  { intros idx v Hv. split.
    - exact (proj1 (exchanged_by world P L w (pool_kernel (chosen choose)) value G Y x HG b c xs ys EG Hcnt Hb Hc0 Hys HY HB HIn
               _ _ _ pre init eager gf idx v HPl (Cl pre Hpre) Hf Hv)).
    - exact (windows_seen world P L w HG b c xs ys Hcnt Hb Hc0 Hys HIn _ _ _ HPl value G x pre init eager gf idx v EG HB (Cl pre Hpre) Hf Hv). }
  assert (HK : forall idx v, worker_at P idx v -> max_cotangent P w choose shape (halo_result gf) dy v =
    Ok (slice_backward (padded_shape (pad_layout L (0 :: 0 :: w_padding w)) (feature_halos L w) idx) (slice_of L w idx)
        (max_scatter (max_positions choose w (local_in L w idx (halo_result gf v))) (tshape (local_in L w idx (halo_result gf v))) (dy v)))).
  { intros idx v Hv. unfold max_cotangent. rewrite (fg_setup world P L w HG shape HS idx v Hv). cbn [rbind u_needed].
    unfold local_in, slice_tensor, slice_of. now rewrite (proj1 (HF idx v Hv)). }
  split; [|split].
  - intros idx v Hv.
    assert (Hl : forall g g' : list Z -> R, (forall t, valid_index (w_kernel w) t -> g t = g' t) -> chosen choose g = chosen choose g').
    { intros g g' E. unfold chosen. rewrite (proj2 HC g g' E). apply E. apply HC. }
    destruct (C30_pooling_kernels R w (chosen choose) Hl) as [K1 K2].
    destruct (C30_proof R world P L w (pool_kernel (chosen choose)) (fun c => c) value G Y x HG K1 (or_intror K2) HQ HB) as (_ & _ & D).
    { unfold out_counts. rewrite EG, EY. exact HIn. }
    exact (proj1 (D pre init eager gf Hpre Hf) idx v Hv).
  - intros v Hv. destruct (in_dec Z.eq_dec v (p_ranks P)) as [Hr|Hr].
    + destruct (worker_at_exists P v) as [idx Hi]; [apply HG|auto|]. unfold back, max_back_argument. now rewrite (HK idx v Hi).
    + unfold back, max_back_argument. now rewrite (max_inactive P w choose shape (halo_result gf) dy v Hr).
  - intros pre' init' eager' gb Hpre' Hgb. split.
    + intros idx v Hv. rewrite EY in ED, HD.
      set (x' := fun v => if is_active (p_ranks P) v then x v else dy v).
      assert (HB' : holds_blocks P L G x').
      { split; [apply HB|]. intros i u Hu. unfold x'. rewrite (proj2 (is_active_spec _ _) (worker_at_In _ _ _ Hu)). now apply HB. }
      assert (HO' : forall v, In v world -> ~ In v (p_ranks P) -> tshape (dy v) = tshape (x' v)).
      { intros u _ Hu. unfold x'. apply is_active_false in Hu. now rewrite Hu. }
      assert (HS' : forall idx v, worker_at P idx v -> tshape (x' v) = block_shape L idx).
      { intros i u Hu. destruct HB' as [_ Hx]. exact (proj1 (Hx i u Hu)). }
      unfold shape. rewrite (ow_gradient world P L w HG x HS dy (halo_result gb) idx v Hv).
      rewrite <- (ow_gradient world P L w HG x' HS' dy (halo_result gb) idx v Hv).
      exact (mp_blocks world P L w HG b c xs ys EL Hcnt Hb Hc0 Hys HIn _ _ _ HPl choose value G dY x' dy back (halo_result gf) HC EG HB' ED HD HO' HF
        (fun i u Hu => ltac:(unfold back, max_back_argument; now rewrite (HK i u Hu)))
        (fun u Hu => ltac:(unfold back, max_back_argument; now rewrite (max_inactive P w choose shape (halo_result gf) dy u Hu)))
        pre' init' eager' gb (Cl pre' Hpre') Hgb idx v Hv).
    + intros v _ Hv. unfold feature_gradient. pose proof (fg_inactive P w shape v Hv) as E. rewrite E. reflexivity.
Qed.

Theorem C57_max_pooling_gradients : C57_statement.
Proof. exact C57_proof. Qed.

(** [max_gradient] is the gradient: wherever the choices are the same, the output
    changes by exactly the product with it. *)
Definition C57_linear_statement : Prop :=
  forall (R : CRing) (choose : @choice R) (value : R) (w : window) (G X Y YX dY : tensor R),
    is_sequential (pool_kernel (chosen choose)) (fun c => c) value w G Y ->
    is_sequential (pool_kernel (chosen choose)) (fun c => c) value w X YX ->
    tshape X = tshape G -> tshape dY = tshape Y -> tshape YX = tshape Y ->
    (forall b c o, valid_index (tshape Y) (b :: c :: o) -> seen_choice choose value w X b c o = seen_choice choose value w G b c o) ->
    let dX := max_gradient choose value w G dY in
    rsub (inner YX dY) (inner Y dY) = rsub (inner X dX) (inner G dX).

Section Linear.
  Context {R : CRing}.
  Add Ring R_lin : (rth R).

  Lemma linear_at choose value w (G X Y YX dY : tensor R) :
    is_sequential (pool_kernel (chosen choose)) (fun c => c) value w G Y ->
    is_sequential (pool_kernel (chosen choose)) (fun c => c) value w X YX ->
    tshape X = tshape G -> tshape dY = tshape Y -> tshape YX = tshape Y ->
    (forall b c o, valid_index (tshape Y) (b :: c :: o) -> seen_choice choose value w X b c o = seen_choice choose value w G b c o) ->
    let dX := max_gradient choose value w G dY in
    rsub (inner YX dY) (inner Y dY) = rsub (inner X dX) (inner G dX).
  Proof.
    intros (b & c & xs & ys & EG & EY & _ & _ & _ & _ & HY) (b2 & c2 & xs2 & ys2 & EX & EYX & _ & _ & _ & _ & HYX) SX Sd SY Hs dX.
    rewrite SX, EG in EX. injection EX as <- <- <-. rewrite EY in Sd.
    unfold dX.
    rewrite <- (picked_adjoint choose value w G X dY b c xs ys EG (eq_trans SX EG) Sd).
    rewrite <- (picked_adjoint choose value w G G dY b c xs ys EG EG Sd).
    unfold inner. cbn [picked tshape tat]. rewrite SY, EY, Sd, <- !sumf_sub. apply sumf_ext. intros i Hi. apply in_indices in Hi.
    destruct i as [|b' [|c' o]]; [inversion Hi|inversion Hi as [|? ? ? ? ? Hi']; inversion Hi'|].
    rewrite <- EY in Hi. pose proof (Hs b' c' o Hi) as Ec. rewrite HY by auto. rewrite HYX by (now rewrite SY).
    unfold pool_kernel, chosen. rewrite EG. cbn [skipn].
    change (choose (fun t => value_at G value (b' :: c' :: vec (length xs) (fun j => nth j (w_stride w) 0 * nth j o 0 - nth j (w_padding w) 0
             + nth j (w_dilation w) 0 * nth j t 0)))) with (choose (fun t => value_at G value (b' :: c' :: seen_point (length xs) w o t))).
    change (choose (fun t => value_at X value (b' :: c' :: vec (length xs) (fun j => nth j (w_stride w) 0 * nth j o 0 - nth j (w_padding w) 0
             + nth j (w_dilation w) 0 * nth j t 0)))) with (choose (fun t => value_at X value (b' :: c' :: seen_point (length xs) w o t))).
    unfold seen_choice, seen_values in *. rewrite SX, EG in Ec. cbn [skipn] in Ec. rewrite Ec, EG. cbn [skipn].
    set (t := choose _). fold (seen_point (length xs) w o t). unfold value_at. rewrite SX, EG.
    destruct (inside (b :: c :: xs) (b' :: c' :: seen_point (length xs) w o t)); [reflexivity|ring].
  Qed.
End Linear.

Theorem C57_locally_linear : C57_linear_statement.
Proof. intros R choose value w G X Y YX dY. apply linear_at. Qed.

(** torch's choice: an element of the tensor, not of the padding; none in the window
    is greater, and those before it are smaller. *)
Definition C57_first_statement : Prop :=
  forall (R : CRing) (gt : R -> R -> bool) (w : window) (value : R) (G : tensor R) (b c : Z) (o : list Z),
    strict_order gt -> window_ok (length (w_kernel w)) w ->
    choice_local w (first_max gt w) /\
    let at_ t := b :: c :: seen_point (length (skipn 2 (tshape G))) w o t in
    let t0 := seen_choice (first_max gt w) value w G b c o in
    (forall i, valid_index (tshape G) i -> gt (tat G i) value = true) ->
    (exists t, valid_index (w_kernel w) t /\ valid_index (tshape G) (at_ t)) ->
    valid_index (tshape G) (at_ t0) /\
    forall t, valid_index (w_kernel w) t -> valid_index (tshape G) (at_ t) ->
      gt (tat G (at_ t)) (tat G (at_ t0)) = false /\
      forall l1 l2 l3, indices (w_kernel w) = l1 ++ t :: l2 ++ t0 :: l3 -> gt (tat G (at_ t0)) (tat G (at_ t)) = true.

Lemma C57_first_proof : C57_first_statement.
Proof.
  intros R gt w value G b c o Ho Hw. split; [exact (first_max_local gt w Hw)|]. intros at_ t0 Hv (t1 & Ht1 & In1).
  set (g := seen_values value w G b c o).
  destruct (indices_cons w Hw) as (h & l & El).
  assert (E0 : t0 = fold_left (fun best t => if gt (g t) (g best) then t else best) l h).
  { unfold t0, seen_choice, first_max. fold g. rewrite El. cbn [hd fold_left]. now rewrite (proj1 Ho). }
  assert (Hm : forall t, valid_index (w_kernel w) t -> gt (g t) (g t0) = false).
  { intros t Ht. rewrite E0. apply (fold_max gt Ho g l h t). rewrite <- El. now apply in_indices. }
  assert (Eg : forall t, valid_index (tshape G) (at_ t) -> g t = tat G (at_ t)).
  { intros t Ht. unfold g, seen_values, value_at. fold (at_ t). apply inside_spec in Ht. now rewrite Ht. }
  assert (In0 : valid_index (tshape G) (at_ t0)).
  { destruct (inside (tshape G) (at_ t0)) eqn:Ei; [now apply inside_spec|]. exfalso.
    assert (Ev : g t0 = value) by (unfold g, seen_values, value_at; fold (at_ t0); now rewrite Ei).
    pose proof (Hm t1 Ht1) as A. rewrite Ev, (Eg t1 In1), (Hv _ In1) in A. discriminate. }
  split; auto. intros t Ht Hi. rewrite <- (Eg t Hi), <- (Eg t0 In0). split; [now apply Hm|].
  intros l1 l2 l3 E. apply (fold_first gt Ho g l h t0 (l1 ++ t :: l2) l3 E0).
  - rewrite <- El. apply indices_nodup.
  - rewrite <- El, E, <- app_assoc. reflexivity.
  - apply in_or_app. right. now left.
Qed.

Theorem C57_first_maximum : C57_first_statement.
Proof. exact C57_first_proof. Qed.

(** Kernel 3, stride 2 and padding 1 over 2x4 workers as in [C30_pooling_example],
    with equal elements; -1000 stands for minus infinity. *)
Definition mp_choose : @choice Zring := @first_max Zring Z.gtb pl_w.
Definition mp_G : tensor Zring := @mkt Zring [2; 3; 14] (fun i => (5 * nth 0 i 0 + 3 * nth 1 i 0 + nth 2 i 0 * nth 2 i 0) mod 7).
Definition mp_Y : tensor Zring := @mkt Zring [2; 3; 7] (fun i =>
  match i with
  | b' :: c' :: o => chosen mp_choose (fun t => value_at mp_G (-1000) (b' :: c' ::
      vec 1 (fun j => nth j [2] 0 * nth j o 0 - nth j [1] 0 + nth j [1] 0 * nth j t 0)))
  | _ => 0
  end).
Definition mp_dY : tensor Zring := @mkt Zring [2; 3; 7] (fun i => 100 * nth 0 i 0 + 10 * nth 1 i 0 + nth 2 i 0 + 1).
Definition mp_x (v : Z) : tensor Zring := block pl_L [0; v / 4; v mod 4] mp_G.
Definition mp_dy (v : Z) : tensor Zring := block (balanced [2; 3; 7] [1; 2; 4]) [0; v / 4; v mod 4] mp_dY.
Definition mp_arg := halo_argument pl_P pl_w (-1000 : car Zring) pl_shape mp_x.
Definition mp_run (c : @call Zring) (v : Z) : tensor Zring :=
  last (h_hist (sync_rounds (history_rounds pl_P (fun v => tshape (mp_arg v)) (fun v => u_recv (pl_plan v))
                               (fun v => u_send (pl_plan v)) [c]) cv_zero v)) (@mkt Zring [] (fun _ => 0)).
Definition mp_fwd := mp_run (HForward mp_arg).
Definition mp_back := max_back_argument pl_P pl_w mp_choose pl_shape mp_fwd mp_dy.
Definition mp_dx (v : Z) : tensor Zring := val (feature_gradient pl_P pl_w pl_shape mp_dy (mp_run (HBackward mp_back)) v).

Lemma mp_workers idx v : worker_at pl_P idx v -> exists a k, idx = [0; a; k] /\ v = 4 * a + k /\ (a = 0 \/ a = 1) /\ (k = 0 \/ k = 1 \/ k = 2 \/ k = 3).
Proof.
  intros [Hi Hv].
  inversion Hi as [|? a ? t Ha Ht]; subst. inversion Ht as [|? b ? t' Hb Ht']; subst.
  inversion Ht' as [|? c ? t'' Hc Ht'']; subst. inversion Ht''; subst.
  assert (a = 0) by lia; subst. exists b, c. split; auto.
  assert (b = 0 \/ b = 1) as [-> | ->] by lia;
  assert (c = 0 \/ c = 1 \/ c = 2 \/ c = 3) as [-> |[-> |[-> | ->]]] by lia; cbn in Hv; inv Hv; repeat split; auto; lia.
Qed.

Example C57_example :
  feature_given pl_P.(p_ranks) pl_P pl_L pl_w /\ choice_local pl_w mp_choose /\
  is_sequential (pool_kernel (chosen mp_choose)) (fun c => c) (-1000 : car Zring) pl_w mp_G mp_Y /\
  within pl_L pl_w (out_counts mp_G mp_Y) /\ holds_blocks pl_P pl_L mp_G mp_x /\
  tshape mp_dY = tshape mp_Y /\ holds_blocks pl_P (balanced (tshape mp_Y) (p_shape pl_P)) mp_dY mp_dy /\
  let dX := max_gradient mp_choose (-1000 : car Zring) pl_w mp_G mp_dY in
  map (fun k => tat mp_G [0; 0; k]) (zrange 14) = [0; 1; 4; 2; 2; 4; 1; 0; 1; 4; 2; 2; 4; 1] /\
  map (fun k => tat mp_Y [0; 0; k]) (zrange 7) = [1; 4; 4; 4; 4; 4; 4] /\
  map (fun k => tat dX [0; 0; k]) (zrange 14) = [0; 1; 2; 0; 0; 3 + 4; 0; 0; 0; 5 + 6; 0; 0; 7; 0] /\
  map (fun v => map (tat (mp_dx v)) (indices (tshape (mp_dx v)))) [0; 1; 2; 3; 4; 5; 6; 7] =
  map (fun v => map (tat (block pl_L [0; v / 4; v mod 4] dX)) (indices (tshape (mp_x v)))) [0; 1; 2; 3; 4; 5; 6; 7].
Proof.
  split; [apply C30_pooling_example|].
  split; [apply first_max_local; apply C30_pooling_example|].
  split.
  { exists 2, 3, [14], [7]. split; [reflexivity|]. split; [reflexivity|].
    split.
    { split; [reflexivity|]. intros [|j] Hj; cbn in Hj; [|lia]. cbn. split; [lia|]. unfold window_fits. intros. lia. }
    split; [lia|]. split; [lia|]. split; [repeat constructor|]. reflexivity. }
  split; [exact (proj1 (proj2 (proj2 (proj2 (proj2 (proj2 C30_pooling_example))))))|].
  split; [split; [reflexivity|]; intros idx v Hv; destruct (mp_workers idx v Hv) as (a & k & -> & -> & [-> | ->] & [-> |[-> |[-> | ->]]]); apply teq_refl|].
  split; [reflexivity|].
  split; [split; [vm_compute; reflexivity|]; intros idx v Hv; destruct (mp_workers idx v Hv) as (a & k & -> & -> & [-> | ->] & [-> |[-> |[-> | ->]]]); apply teq_refl|].
  cbv zeta. split; [vm_compute; reflexivity|]. split; [vm_compute; reflexivity|]. split; vm_compute; reflexivity.
Qed.

(** A tensor with the same choices: every element doubled. *)
Definition mp_X : tensor Zring := @mkt Zring [2; 3; 14] (fun i => 2 * tat mp_G i).
Definition mp_YX : tensor Zring := @mkt Zring [2; 3; 7] (fun i =>
  match i with
  | b' :: c' :: o => chosen mp_choose (fun t => value_at mp_X (-1000) (b' :: c' ::
      vec 1 (fun j => nth j [2] 0 * nth j o 0 - nth j [1] 0 + nth j [1] 0 * nth j t 0)))
  | _ => 0
  end).

Example C57_linear_example :
  let dX := max_gradient mp_choose (-1000 : car Zring) pl_w mp_G mp_dY in
  (forall b c o, valid_index (tshape mp_Y) (b :: c :: o) ->
     seen_choice mp_choose (-1000 : car Zring) pl_w mp_X b c o = seen_choice mp_choose (-1000 : car Zring) pl_w mp_G b c o) /\
  is_sequential (pool_kernel (chosen mp_choose)) (fun c => c) (-1000 : car Zring) pl_w mp_X mp_YX /\
  inner mp_YX mp_dY - inner mp_Y mp_dY = inner mp_X dX - inner mp_G dX /\ inner mp_X dX - inner mp_G dX = 13300.
Proof.
  cbv zeta. split.
  { assert (A : forallb (fun i => match i with b :: c :: o =>
        zlist_eqb (seen_choice mp_choose (-1000 : car Zring) pl_w mp_X b c o) (seen_choice mp_choose (-1000 : car Zring) pl_w mp_G b c o) | _ => true end)
      (indices (tshape mp_Y)) = true) by (vm_compute; reflexivity).
    intros b c o Hi. rewrite forallb_forall in A. specialize (A (b :: c :: o)). cbv beta iota in A. apply zlist_eqb_eq. apply A.
    now apply in_indices. }
  split.
  { exists 2, 3, [14], [7]. split; [reflexivity|]. split; [reflexivity|].
    split.
    { split; [reflexivity|]. intros [|j] Hj; cbn in Hj; [|lia]. cbn. split; [lia|]. unfold window_fits. intros. lia. }
    split; [lia|]. split; [lia|]. split; [repeat constructor|]. reflexivity. }
  split; vm_compute; reflexivity.
Qed.

Example C57_first_example :
  @strict_order Zring Z.gtb /\ window_ok (length (w_kernel pl_w)) pl_w /\
  (forall i, valid_index (tshape mp_G) i -> Z.gtb (tat mp_G i) (-1000) = true) /\
  seen_choice mp_choose (-1000 : car Zring) pl_w mp_G 0 0 [0] = [2] /\
  seen_choice mp_choose (-1000 : car Zring) pl_w mp_G 1 2 [2] = [0].
Proof.
  split; [|split; [apply C30_pooling_example|split; [|split; vm_compute; reflexivity]]].
  - split; [|split]; intros; cbn [car Zring] in *; rewrite ?Z.gtb_ltb, ?Z.ltb_lt, ?Z.ltb_ge in *; lia.
  - intros i _. cbn [mp_G tat]. rewrite Z.gtb_ltb. apply Z.ltb_lt. assert (0 <= (5 * nth 0 i 0 + 3 * nth 1 i 0 + nth 2 i 0 * nth 2 i 0) mod 7) by (apply Z.mod_pos_bound; lia). lia.
Qed.

Print Assumptions C57_max_pooling_gradients.
Print Assumptions C57_locally_linear.
Print Assumptions C57_first_maximum.
