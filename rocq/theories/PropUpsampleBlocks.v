(** The backward pass of the upsampling layer returns the blocks of the gradient of
    the sequential upsampling (C69). *)

From Coq Require Import QArith Qcanon.
From Verif Require Import Prelude SpecIndex SpecLayout SpecPartition SpecHalo ModelSlicing ModelDecomposition
  ModelPartition ProofSlicing ProofDecomposition ProofPartition PropDecomposition Ring Tensor ModelCollectives PropCollectives PropExchange
  ModelUtilities PropUtilities Blocks P2P Rounds ModelRepartition ProofTransfer PropRepartition ModelHaloMixin ProofHaloMixin
  ModelHaloExchange PropHaloExchange ModelFeatureLayer ProofFeatureLayer PropFeatureLayer ModelInterpolate ProofInterpolate
  PropInterpolate PropBatchNorm ModelScalars ModelUpsample SpecInterpolate ProofUpsample ProofUpsampleLayer PropUpsample
  ProofUpsampleOutput PropUpsampleLayer ModelGradients ProofGradients ModelUpsampleGrad PropUpsampleGrad SpecUpsampleGrad ProofFeatureGrad PropFeatureGrad.
Local Open Scope Z_scope.

(** * C69 *)

Definition C69_statement (extra : part -> method -> list Z -> list Z -> Prop) : Prop :=
  forall (R : CRing) (weight : Qc -> R) (world : list Z) (P : part) (a : upsample_args exact_types)
    (X : list Z) (dY : tensor R) (x dy : Z -> tensor R),
    weight 1%Qc = rone ->
    NoDup world -> (forall v, In v (p_ranks P) -> In v world) -> part_ok P ->
    length X = length (p_shape P) -> (3 <= length X <= 5)%nat -> pos_shape X ->
    upsample_output_shape a X = Ok (tshape dY) -> nth 0 (tshape dY) 0 = nth 0 X 0 -> nth 1 (tshape dY) 0 = nth 1 X 0 ->
    (forall j, (2 <= j < length X)%nat -> sensible (asked a) (nth j X 0) (nth j (tshape dY) 0)) ->
    (forall j, (j < length X)%nat -> nth j (p_shape P) 0 <= nth j (tshape dY) 0) ->   (* every worker has outputs *)
    (u_align a = None \/ nth 0 (p_shape P) 0 = 1 /\ nth 1 (p_shape P) 0 = 1) ->
    extra P (asked a) X (tshape dY) ->
    (forall idx v, worker_at P idx v -> tshape (x v) = block_shape (balanced X (p_shape P)) idx) ->
    holds_blocks P (balanced (tshape dY) (p_shape P)) dY dy ->
    let shape v := tshape (x v) in
    let arg := upsample_argument exact_types P a shape x in
    let back := upsample_back_argument exact_types weight P a shape (fun v => tshape (arg v)) dy in
    let plan := upsample_plan exact_types P a shape in
    let layer := history_rounds P (fun v => tshape (arg v)) (fun v => e_recv (plan v)) (fun v => e_send (plan v)) in
    (* nothing raises before the halo layer... *)
    (forall v, In v world -> upsample_cotangent exact_types weight P a shape (fun v => tshape (arg v)) dy v = Ok (back v)) /\
    (* ... whose exchange is safe (C27)... *)
    halo_safe R world P (fun v => tshape (arg v)) (fun v => e_recv (plan v)) (fun v => e_send (plan v)) /\
    (* ... and the gradients are the blocks of the sequential gradient *)
    forall pre init eager gb, same_calls P arg pre -> ends world (layer (pre ++ [HBackward back])) init eager gb ->
      (forall idx v, worker_at P idx v ->
         exists t, upsample_gradient exact_types P a shape dy (halo_result gb) v = Ok t /\
                   teq t (block (balanced X (p_shape P)) idx (upsample_from (asked a) weight X dY))) /\
      (forall v, In v world -> ~ In v (p_ranks P) -> upsample_gradient exact_types P a shape dy (halo_result gb) v = Ok (dy v)).

(** [upsample_to] is what C48 compares with, and [upsample_from] its gradient: the
    rate of change of the loss in the direction [G'], the upsampling being linear. *)
Definition C69_gradient_statement : Prop :=
  forall (R : CRing) (m : method) (weight : Qc -> R) (b c : Z) (xs ys : list Z) (G dY : tensor R),
    length ys = length xs -> (forall j, (j < length xs)%nat -> sensible m (nth j xs 0) (nth j ys 0)) ->
    tshape G = b :: c :: xs -> tshape dY = b :: c :: ys ->
    upsampled m weight G (upsample_to m weight (b :: c :: ys) G) /\
    inner (upsample_to m weight (b :: c :: ys) G) dY = inner G (upsample_from m weight (b :: c :: xs) dY).

(** ** The sequential gradient *)

Section Sequential.
  Context {R : CRing}.
  Add Ring R_ring : (rth R).
  Variables (m : method) (weight : Qc -> R).

  Lemma reads_inside nx ny y r : sensible m nx ny -> y < ny -> In r (reads m nx ny y) -> 0 <= fst r < nx.
  Proof.
    intros Hm Hy Hr. pose proof (first_read_bounds m nx ny Hm y Hy) as B. rewrite (reads_eq m nx ny Hm) in Hr.
    destruct m as [| |s]; cbv zeta in Hr; destruct Hr as [<-|Hr]; cbn [fst]; try lia; try (destruct Hr; fail);
      destruct Hr as [<-|[]]; cbn [fst]; lia.
  Qed.

  Lemma sum_cons n s (g : list Z -> R) : sumf (indices (n :: s)) g = sumf (zrange n) (fun k => sumf (indices s) (fun t => g (k :: t))).
  Proof. cbn [indices]. rewrite sumf_flat_map. apply sumf_ext. intros k _. apply sumf_map. Qed.

  Lemma mixture_share xs : forall ys o (g : list Z -> R), length ys = length xs -> valid_index ys o ->
    (forall j, (j < length xs)%nat -> sensible m (nth j xs 0) (nth j ys 0)) ->
    mixture m weight xs ys o g = sumf (indices xs) (fun t => rmul (share m weight xs ys o t) (g t)).
  Proof.
    induction xs as [|nx xs IH]; intros [|ny ys] o g El Ho Hs; try discriminate.
    - inversion Ho; subst. cbn. ring.
    - inversion Ho as [|? y ? o' Hy Ho']; subst. cbn [mixture]. rewrite sum_cons.
      transitivity (sumf (reads m nx ny y) (fun r => sumf (zrange nx) (fun k => if fst r =? k then
        rmul (weight (snd r)) (sumf (indices xs) (fun t => rmul (share m weight xs ys o' t) (g (k :: t)))) else rzero))).
      + apply sumf_ext. intros r Hr. rewrite (sumf_single (zrange nx) _ (fst r)).
        * rewrite Z.eqb_refl. f_equal. apply IH; auto. intros j Hj. apply (Hs (S j)). cbn. lia.
        * apply zrange_nodup.
        * apply in_zrange. eapply reads_inside; eauto; [apply (Hs 0%nat); cbn; lia|lia].
        * intros k _ Hk. destruct (Z.eqb_spec (fst r) k); congruence.
      + rewrite sumf_exchange. apply sumf_ext. intros k _. cbn [share].
        transitivity (rmul (sumf (reads m nx ny y) (fun r => if fst r =? k then weight (snd r) else rzero))
                           (sumf (indices xs) (fun t => rmul (share m weight xs ys o' t) (g (k :: t))))).
        * rewrite <- sumf_mul_r. apply sumf_ext. intros r _. destruct (fst r =? k); ring.
        * rewrite <- sumf_mul_l. apply sumf_ext. intros t _. ring.
  Qed.

  Variables (b c : Z) (xs ys : list Z).
  Hypothesis El : length ys = length xs.
  Hypothesis Hs : forall j, (j < length xs)%nat -> sensible m (nth j xs 0) (nth j ys 0).

  Lemma to_upsampled (G : tensor R) : tshape G = b :: c :: xs -> upsampled m weight G (upsample_to m weight (b :: c :: ys) G).
  Proof. intros E. exists b, c, xs, ys. do 3 (split; [auto|]). intros b' c' o _. cbn [upsample_to tat]. now rewrite E. Qed.

  Lemma from_adjoint (G dY : tensor R) : tshape G = b :: c :: xs -> tshape dY = b :: c :: ys ->
    inner (upsample_to m weight (b :: c :: ys) G) dY = inner G (upsample_from m weight (b :: c :: xs) dY).
  Proof.
    intros EG ED. unfold inner. rewrite EG. cbn [upsample_to tshape]. rewrite !sum_cons.
    apply sumf_ext. intros b' _. rewrite !sum_cons. apply sumf_ext. intros c' _. cbn [upsample_to upsample_from tat]. rewrite EG, ED. cbn [skipn].
    transitivity (sumf (indices ys) (fun o => sumf (indices xs) (fun t => rmul (rmul (share m weight xs ys o t) (tat G (b' :: c' :: t))) (tat dY (b' :: c' :: o))))).
    - apply sumf_ext. intros o Ho. apply in_indices in Ho. rewrite mixture_share by auto. now rewrite sumf_mul_r.
    - rewrite sumf_exchange. apply sumf_ext. intros t _. rewrite <- sumf_mul_l. apply sumf_ext. intros o _. ring.
  Qed.
End Sequential.

Lemma C69_gradient_proof : C69_gradient_statement.
Proof. intros R m weight b c xs ys G dY El Hs EG ED. split; [now apply to_upsampled with (xs := xs)|now apply from_adjoint]. Qed.

(** ** The setup depends on the extents of the blocks only *)

Lemma setup_same T P (a : upsample_args T) X shape shape' : part_ok P -> length X = length (p_shape P) -> nonneg_shape X ->
  (forall idx v, worker_at P idx v -> shape v = block_shape (balanced X (p_shape P)) idx) ->
  (forall idx v, worker_at P idx v -> shape' v = block_shape (balanced X (p_shape P)) idx) ->
  forall v, upsample_setup T P a shape v = upsample_setup T P a shape' v.
Proof.
  intros HP HL HX H H' v. unfold upsample_setup. destruct (index_in P v) as [idx|] eqn:E; [|reflexivity].
  pose proof (proj1 (index_in_spec P v idx HP) E) as Hv.
  assert (Hpos : Forall (fun p => 0 < p) (p_shape P)) by apply HP.
  assert (Q : forall sh, (forall idx v, worker_at P idx v -> sh v = block_shape (balanced X (p_shape P)) idx) ->
              assemble_global_shape P sh v = Ok (layout_shape (balanced X (p_shape P)))).
  { intros sh Hsh. apply (assemble_layout P sh (balanced X (p_shape P)) v idx); auto; [now apply balanced_ok|now apply balanced_workers]. }
  now rewrite (Q shape H), (Q shape' H').
Qed.

(** ** The two passes, whatever plan of these extents they follow *)

Section Passes.
  Context {R : CRing}.
  Variable weight : Qc -> R.
  Variables (world : list Z) (P : part) (a : upsample_args exact_types) (X Y : list Z) (x dy back : Z -> tensor R).
  Hypothesis HN : NoDup world.
  Hypothesis HI : forall v, In v (p_ranks P) -> In v world.
  Hypothesis HU : usable P a X Y.
  Hypothesis HS : forall idx v, worker_at P idx v -> tshape (x v) = block_shape (balanced X (p_shape P)) idx /\
                                                     tshape (dy v) = block_shape (balanced Y (p_shape P)) idx.
  Hypothesis HO : forall v, In v world -> ~ In v (p_ranks P) -> tshape (dy v) = tshape (x v).
  Let L := balanced X (p_shape P).
  Let H := up_halos P a X Y.
  Let shape v := tshape (x v).
  Let arg := upsample_argument exact_types P a shape x.
  Variables (sh : Z -> list Z) (recv send : Z -> list (Z * Z)).
  Hypothesis HP : planned P L H sh recv send.
  Hypothesis HB : forall v, back v = upsample_back_argument exact_types weight P a shape (fun v => tshape (arg v)) dy v.

  Lemma up_passes pre pre' init init' eager eager' gf gb :
    Forall (call_ok P L H) pre -> Forall (call_ok P L H) pre' ->
    ends world (history_rounds P sh recv send (pre ++ [HForward arg])) init eager gf ->
    ends world (history_rounds P sh recv send (pre' ++ [HBackward back])) init' eager' gb ->
    exists y dx : Z -> tensor R,
      (forall v, In v world ->
         upsample_output exact_types weight P a shape x (halo_result gf) v = Ok (y v) /\ tshape (y v) = tshape (dy v) /\
         upsample_gradient exact_types P a shape dy (halo_result gb) v = Ok (dx v) /\ tshape (dx v) = tshape (x v)) /\
      world_inner world y dy = world_inner world x dx.
  Proof.
    intros Hp Hp' Hf Hb.
    assert (Hgv : halo_given world P L H) by exact (gr_given world P a X Y HN HI HU).
    assert (Cf : Forall (call_ok P L H) (pre ++ [HForward arg])).
    { apply Forall_app. split; [exact Hp|]. constructor; [|constructor]. intros i' v' Hv'. apply (gr_pad weight world P a X Y x dy HI HU HS i' v' Hv'). }
    assert (Cb : Forall (call_ok P L H) (pre' ++ [HBackward back])).
    { apply Forall_app. split; [exact Hp'|]. constructor; [|constructor]. intros i' v' Hv'. cbv zeta. rewrite HB.
      apply (gr_kernel weight world P a X Y x dy HI HU HS i' v' Hv'). }
    destruct (C26_proof R world P L H _ _ _ pre pre' arg back init init' eager eager' gf gb Hgv (up_halos_fit P a X Y HU) HP Cf Cb) as [Sh Ad]; auto.
    { intros v Hv Hout. pose proof (gr_inactive P a x v Hout) as E. rewrite HB.
      unfold upsample_back_argument, upsample_cotangent, arg, upsample_argument, upsample_input. fold shape in E. rewrite E. cbn [rbind]. symmetry. auto. }
    set (y := fun v => match upsample_output exact_types weight P a shape x (halo_result gf) v with Ok t => t | Raise _ => x v end).
    set (dx := fun v => match upsample_gradient exact_types P a shape dy (halo_result gb) v with Ok t => t | Raise _ => x v end).
    exists y, dx.
    assert (K : forall v, In v world ->
           (upsample_output exact_types weight P a shape x (halo_result gf) v = Ok (y v) /\ tshape (y v) = tshape (dy v) /\
            upsample_gradient exact_types P a shape dy (halo_result gb) v = Ok (dx v) /\ tshape (dx v) = tshape (x v)) /\
           inner (y v) (dy v) = inner (halo_result gf v) (back v) /\ inner (x v) (dx v) = inner (arg v) (halo_result gb v)).
    { intros v Hv. destruct (Sh v Hv) as [Sf Sb]. destruct (in_dec Z.eq_dec v (p_ranks P)) as [Hin|Hout].
      - destruct (worker_at_exists P v (us_part _ _ _ _ HU) Hin) as [idx Hw].
        destruct (gr_pad weight world P a X Y x dy HI HU HS idx v Hw) as (_ & Sa & Pa).
        destruct (gr_kernel weight world P a X Y x dy HI HU HS idx v Hw) as (_ & Sk & Ke).
        destruct (gr_setup weight world P a X Y x dy HI HU HS idx v Hw) as (u & Eu & _ & _ & _ & Eh & _).
        fold shape in Sa, Pa, Sk, Ke, Eu. fold arg in Sa, Pa, Sk, Ke. rewrite <- HB in Sk, Ke.
        destruct (Ke (halo_result gf) ltac:(congruence)) as (t & Et & St & It).
        destruct (Pa (halo_result gb v) ltac:(congruence)) as (d & Ed & Sd & Id).
        assert (Eg : upsample_gradient exact_types P a shape dy (halo_result gb) v = Ok d).
        { unfold upsample_gradient. rewrite Eu. cbn [rbind]. now rewrite Eh. }
        unfold y, dx. rewrite Et, Eg. repeat split; auto.
      - pose proof (gr_inactive P a x v Hout) as E. fold shape in E.
        assert (Ea : arg v = x v) by (unfold arg, upsample_argument, upsample_input; rewrite E; reflexivity).
        assert (Eb : back v = dy v) by (rewrite HB; unfold upsample_back_argument, upsample_cotangent; rewrite E; reflexivity).
        assert (Ey : upsample_output exact_types weight P a shape x (halo_result gf) v = Ok (x v)) by (unfold upsample_output; rewrite E; reflexivity).
        assert (Eg : upsample_gradient exact_types P a shape dy (halo_result gb) v = Ok (dy v)) by (unfold upsample_gradient; rewrite E; reflexivity).
        pose proof (halo_inactive world P L H _ _ _ pre (HForward arg) arg init eager gf v (or_introl eq_refl) Hgv HP Hf Hv Hout) as [F1 F2].
        pose proof (halo_inactive world P L H _ _ _ pre' (HBackward back) back init' eager' gb v (or_intror eq_refl) Hgv HP Hb Hv Hout) as [B1 B2].
        unfold y, dx. rewrite Ey, Eg. pose proof (HO v Hv Hout) as Sxy. repeat split; auto.
        + rewrite Eb. unfold inner. rewrite F1, Ea. apply sumf_ext. intros i _. now rewrite F2, Ea.
        + rewrite Ea. unfold inner. apply sumf_ext. intros i _. now rewrite B2, Eb. }
    split; [intros v Hv; apply K; auto|].
    unfold world_inner in *. transitivity (sumf world (fun v => inner (halo_result gf v) (back v))).
    - apply sumf_ext. intros v Hv. apply K; auto.
    - rewrite Ad. apply sumf_ext. intros v Hv. symmetry. apply K; auto.
  Qed.
End Passes.

(** ** The blocks *)

Section Blocks.
  Context {R : CRing}.
  Add Ring R_ring2 : (rth R).
  Variable weight : Qc -> R.
  Variables (world : list Z) (P : part) (a : upsample_args exact_types) (X : list Z) (dY : tensor R) (x dy back : Z -> tensor R).
  Notation Y := (tshape dY).
  Hypothesis Hw1 : weight 1%Qc = rone.
  Hypothesis HN : NoDup world.
  Hypothesis HI : forall v, In v (p_ranks P) -> In v world.
  Hypothesis HU : usable P a X Y.
  Hypothesis Hnear : forall j, (j < length X)%nat -> near1 P a X Y j.
  Hypothesis HS : forall idx v, worker_at P idx v -> tshape (x v) = block_shape (balanced X (p_shape P)) idx.
  Hypothesis HO : forall v, In v world -> ~ In v (p_ranks P) -> tshape (dy v) = tshape (x v).
  Hypothesis HD : holds_blocks P (balanced Y (p_shape P)) dY dy.
  Let L := balanced X (p_shape P).
  Let H := up_halos P a X Y.
  Let shape v := tshape (x v).
  Let arg := upsample_argument exact_types P a shape x.
  Variables (sh : Z -> list Z) (recv send : Z -> list (Z * Z)).
  Hypothesis HP : planned P L H sh recv send.
  Hypothesis HB : forall v, back v = upsample_back_argument exact_types weight P a shape (fun v => tshape (arg v)) dy v.
  Variables (pre' : list (@call R)) (init' : Z -> @hst R) (eager' : Z -> Z -> Z -> nat -> bool) (gb : @gst (@hst R) (tensor R)).
  Hypothesis Hp' : Forall (call_ok P L H) pre'.
  Hypothesis Hb' : ends world (history_rounds P sh recv send (pre' ++ [HBackward back])) init' eager' gb.

  (** The layer on a tensor [G]. *)
  Definition held (G : tensor R) (v : Z) : tensor R :=
    mkt (tshape (x v)) (fun i => match index_in P v with Some idx => tat (block L idx G) i | None => rzero end).
  Notation sequential := (upsample_to (asked a) weight Y).

  Lemma held_blocks G : tshape G = X -> holds_blocks P L G (held G).
  Proof.
    intros EX. split.
    - rewrite EX. symmetry. apply balanced_shape; [apply (us_part _ _ _ _ HU)|exact (us_nonneg _ _ _ _ HU)|exact (us_len _ _ _ _ HU)].
    - intros idx v Hv. split; [exact (HS idx v Hv)|]. intros p _. cbn [held tat].
      apply index_in_spec in Hv; [|apply (us_part _ _ _ _ HU)]. now rewrite Hv.
  Qed.

  (** The extents are a batch, channels and features. *)
  Lemma extents : exists b c xs ys, X = b :: c :: xs /\ Y = b :: c :: ys /\ length ys = length xs /\
    forall j, (j < length xs)%nat -> sensible (asked a) (nth j xs 0) (nth j ys 0).
  Proof.
    pose proof (us_dims _ _ _ _ HU) as D. pose proof (us_Ylen P a X Y HU) as EY. pose proof (us_same _ _ _ _ HU) as [S0 S1].
    pose proof (us_sensible _ _ _ _ HU) as Sn.
    destruct X as [|b [|c xs]]; cbn [length] in D; try lia. destruct Y as [|b' [|c' ys]]; cbn [length] in EY; try lia.
    cbn [nth] in S0, S1. subst b' c'. exists b, c, xs, ys. split; [reflexivity|]. split; [reflexivity|]. split; [lia|].
    intros j Hj. rewrite <- asked_method. apply (Sn (S (S j))). cbn [length]. lia.
  Qed.

  Lemma shapes idx v : worker_at P idx v -> tshape (x v) = block_shape (balanced X (p_shape P)) idx /\
                                            tshape (dy v) = block_shape (balanced Y (p_shape P)) idx.
  Proof. intros Hv. split; [now apply HS|]. apply (proj2 HD idx v Hv). Qed.

  Lemma y_ok : layout_ok (balanced Y (p_shape P)) /\ layout_workers (balanced Y (p_shape P)) = p_shape P.
  Proof.
    assert (Hpos : Forall (fun p => 0 < p) (p_shape P)) by apply (us_part _ _ _ _ HU).
    split; [apply balanced_ok; [exact Hpos|exact (us_Ynonneg _ _ _ _ HU)]|].
    apply balanced_workers; [exact Hpos|]. rewrite (us_Ylen P a X Y HU). exact (us_len _ _ _ _ HU).
  Qed.
  Lemma x_ok : layout_ok L /\ layout_workers L = p_shape P.
  Proof.
    assert (Hpos : Forall (fun p => 0 < p) (p_shape P)) by apply (us_part _ _ _ _ HU).
    split; [apply balanced_ok; [exact Hpos|exact (us_nonneg _ _ _ _ HU)]|].
    apply balanced_workers; [exact Hpos|]. exact (us_len _ _ _ _ HU).
  Qed.

  Definition grad_of (v : Z) : tensor R := match upsample_gradient exact_types P a shape dy (halo_result gb) v with Ok t => t | Raise _ => x v end.

  (** Both sides paired with [G]. *)
  Lemma pairing (G : tensor R) : tshape G = X ->
    (forall v, In v world -> upsample_gradient exact_types P a shape dy (halo_result gb) v = Ok (grad_of v) /\ tshape (grad_of v) = tshape (x v)) /\
    sumf (p_ranks P) (fun v => inner (held G v) (grad_of v)) = inner (sequential G) dY.
  Proof.
    intros EX. destruct extents as (b & c & xs & ys & EXs & EYs & El & Hs).
    set (arg' := upsample_argument exact_types P a (fun v => tshape (held G v)) (held G)).
    assert (Hgv : halo_given world P L H) by exact (gr_given world P a X Y HN HI HU).
    destruct (async_ends _ _ _ _ (fun _ _ _ _ => true) (halo_async world P L H sh recv send Hgv HP [HForward arg'] (fun _ => mkhst (tzeros []) (tzeros []) (tzeros []) []))) as [gf Hf].
    pose proof (held_blocks G EX) as HB'.
    assert (HS' : forall idx v, worker_at P idx v -> tshape (held G v) = block_shape (balanced X (p_shape P)) idx /\
                                                     tshape (dy v) = block_shape (balanced Y (p_shape P)) idx) by exact shapes.
    assert (HBk : forall v, back v = upsample_back_argument exact_types weight P a (fun v => tshape (held G v)) (fun v => tshape (arg' v)) dy v).
    { intros v. rewrite HB. destruct (in_dec Z.eq_dec v (p_ranks P)) as [Hr|Hr].
      - destruct (worker_at_exists P v (us_part _ _ _ _ HU) Hr) as [idx Hw].
        pose proof (proj1 (proj2 (gr_pad weight world P a X Y x dy HI HU shapes idx v Hw))) as E1.
        pose proof (proj1 (proj2 (gr_pad weight world P a X Y (held G) dy HI HU HS' idx v Hw))) as E2.
        fold shape in E1. fold arg in E1. fold arg' in E2.
        unfold upsample_back_argument, upsample_cotangent. change (fun v => tshape (held G v)) with shape. rewrite E1, E2. reflexivity.
      - pose proof (gr_inactive P a x v Hr) as E. unfold upsample_back_argument, upsample_cotangent.
        change (fun v => tshape (held G v)) with (fun v => tshape (x v)). unfold shape. rewrite E. reflexivity. }
    assert (HO' : forall v, In v world -> ~ In v (p_ranks P) -> tshape (dy v) = tshape (held G v)) by exact HO.
    destruct (up_passes weight world P a X Y (held G) dy back HN HI HU HS' HO' sh recv send HP HBk [] pre' _ init' _ eager' gf gb
                (Forall_nil _) Hp' Hf Hb') as (y & dx & Hydx & Ad).
    assert (Hy : forall idx v, worker_at P idx v -> teq (y v) (block (balanced Y (p_shape P)) idx (sequential G))).
    { intros idx v Hv.
      assert (HU' : usable P a (tshape G) (tshape (sequential G))) by (rewrite EX; exact HU).
      assert (HB2 : holds_blocks P (balanced (tshape G) (p_shape P)) G (held G)) by (rewrite EX; exact HB').
      assert (Hn2 : forall j, (j < length (tshape G))%nat -> near1 P a (tshape G) (tshape (sequential G)) j) by (rewrite EX; exact Hnear).
      assert (Ex : tshape (halo_result gf v) = padded_shape L H idx /\
                   forall q, valid_index (padded_shape L H idx) q -> tat (halo_result gf v) q = tat G (global_point L H idx q)).
      { destruct (C25_proof R world P L H sh recv send G [] arg' (fun _ => mkhst (tzeros []) (tzeros []) (tzeros []) []) (fun _ _ _ _ => true) gf Hgv (up_halos_narrow P a X Y HU Hnear) HP) as [A1 _].
        - constructor; [|constructor]. intros i' v' Hv'. apply (gr_pad weight world P a X Y (held G) dy HI HU HS' i' v' Hv').
        - intros i' v' p Hv' Hp0. pose proof (proj2 (proj2 (g_arg world P a G (sequential G) (held G) HI HU' HB2 i' v' Hv'))) as Q.
          cbn [upsample_to tshape] in Q. rewrite EX in Q. exact (Q p Hp0).
        - exact Hf.
        - destruct (A1 idx v Hv) as (A2 & A3 & _). split; auto. intros q Hq. now apply A3. }
      pose proof (kernel_ok weight world P a G (sequential G) (held G) Hw1 HI HU' HB2 Hn2 (halo_result gf) idx v Hv) as Q.
      cbn [upsample_to tshape] in Q. rewrite EX in Q. fold L H in Q. destruct Q as (t & Et & Tt).
      - rewrite EYs. apply to_upsampled with (xs := xs); [exact El|]. now rewrite EX.
      - apply Ex.
      - apply Ex.
      - destruct (Hydx v (HI v (worker_at_In _ _ _ Hv))) as (E & _). 
        assert (E' : Ok (y v) = Ok t) by (rewrite <- E; exact Et). injection E' as ->. exact Tt. }
    assert (Eg : forall v, In v world -> grad_of v = dx v).
    { intros v Hv. destruct (Hydx v Hv) as (_ & _ & E & _). unfold grad_of.
      assert (E' : upsample_gradient exact_types P a shape dy (halo_result gb) v = Ok (dx v)) by exact E. now rewrite E'. }
    split.
    { intros v Hv. rewrite (Eg v Hv). destruct (Hydx v Hv) as (_ & _ & E & E'). split; [exact E|exact E']. }
    assert (Hy' : holds_blocks P (balanced Y (p_shape P)) (sequential G) y) by (split; [exact (proj1 HD)|exact Hy]).
    destruct y_ok as [O1 O2]. pose proof (us_part _ _ _ _ HU) as HPo.
    rewrite <- (inner_members P (balanced Y (p_shape P)) (sequential G) dY y dy HPo O1 O2 Hy' HD).
    transitivity (world_inner world (held G) dx).
    - unfold world_inner. rewrite (sum_world world (p_ranks P)); auto; [|apply HPo|].
      + apply sumf_ext. intros v Hv. now rewrite Eg by auto.
      + intros v Hv Hr. unfold inner. apply sumf_zero. intros i _. cbn [held tat]. apply index_in_none in Hr. rewrite Hr. ring.
    - rewrite <- Ad. unfold world_inner. rewrite (sum_world world (p_ranks P)); auto; [apply HPo|].
      intros v Hv Hr. unfold inner. apply sumf_zero. intros i _. destruct (Hydx v Hv) as (E & _).
      pose proof (gr_inactive P a (held G) v Hr) as E0. unfold upsample_output in E. rewrite E0 in E. cbn [rbind] in E. injection E as <-.
      cbn [held tat]. apply index_in_none in Hr. rewrite Hr. ring.
  Qed.

  Lemma gradient_blocks idx v : worker_at P idx v ->
    exists t, upsample_gradient exact_types P a shape dy (halo_result gb) v = Ok t /\
              teq t (block L idx (upsample_from (asked a) weight X dY)).
  Proof.
    intros Hv. destruct x_ok as [HLo HWo]. pose proof (us_part _ _ _ _ HU) as HPo. destruct extents as (b & c & xs & ys & EXs & EYs & El & Hs).
    assert (ELs : layout_shape L = X).
    { apply balanced_shape; [apply HPo|exact (us_nonneg _ _ _ _ HU)|exact (us_len _ _ _ _ HU)]. }
    destruct (pairing (mkt X (fun _ => rzero)) eq_refl) as [Hd _].
    destruct (glue_holds P L grad_of HPo HLo HWo) as [D HDg].
    { intros i u Hu. rewrite (proj2 (Hd u (HI u (worker_at_In _ _ _ Hu)))). exact (HS i u Hu). }
    assert (E : teq D (upsample_from (asked a) weight X dY)).
    { pose proof HDg as [SD _]. split; [rewrite SD; exact ELs|]. intros q Hq. rewrite SD, ELs in Hq.
      rewrite <- (unit_inner X q D Hq).
      rewrite <- (inner_members P L (unit_at X q) D _ _ HPo HLo HWo (held_blocks (unit_at X q) eq_refl) HDg).
      rewrite (proj2 (pairing (unit_at X q) eq_refl)).
      rewrite EYs, (from_adjoint (asked a) weight b c xs ys El Hs (unit_at X q) dY EXs EYs), <- EXs.
      now rewrite unit_inner. }
    exists (grad_of v). split; [apply Hd; apply HI; now apply worker_at_In in Hv|].
    destruct HDg as [SD HDg]. eapply teq_trans; [apply HDg; exact Hv|]. eapply block_ext; eauto.
  Qed.
End Blocks.

Lemma C69_proof : C69_statement neighbours_only.
Proof.
  intros R weight world P a X dY x dy Hw1 HN HI HP HL HD HX EY E0 E1 Hs Hb Hw Hnb HS HDy shape arg back plan layer.
  assert (HU : usable P a X (tshape dY)) by (split; auto; intros; rewrite asked_method; auto).
  pose proof (near_of_neighbours _ _ _ _ HU Hnb) as NR.
  assert (Sh : forall idx v, worker_at P idx v -> tshape (x v) = block_shape (balanced X (p_shape P)) idx /\
                                                  tshape (dy v) = block_shape (balanced (tshape dY) (p_shape P)) idx).
  { intros idx v Hv. split; [now apply HS|]. apply (proj2 HDy idx v Hv). }
  assert (Hpl : planned P (balanced X (p_shape P)) (up_halos P a X (tshape dY)) (fun v => tshape (arg v)) (fun v => e_recv (plan v)) (fun v => e_send (plan v)))
    by exact (gr_planned weight world P a X (tshape dY) x dy HI HU Sh).
  split; [|split].
  - intros v Hv. destruct (in_dec Z.eq_dec v (p_ranks P)) as [Hr|Hr].
    + destruct (worker_at_exists P v HP Hr) as [idx Hi]. apply (gr_kernel weight world P a X (tshape dY) x dy HI HU Sh idx v Hi).
    + pose proof (gr_inactive P a x v Hr) as E. fold shape in E. unfold back, upsample_back_argument, upsample_cotangent. rewrite E. reflexivity.
  - exact (given_safe R _ _ _ _ _ _ _ (gr_given world P a X (tshape dY) HN HI HU) Hpl).
  - intros pre init eager gb Hpre Hend. split.
    + intros idx v Hv. set (x' := fun v => if is_active (p_ranks P) v then x v else dy v).
      assert (HS' : forall idx v, worker_at P idx v -> tshape (x' v) = block_shape (balanced X (p_shape P)) idx).
      { intros i u Hu. unfold x'. rewrite (proj2 (is_active_spec _ _) (worker_at_In _ _ _ Hu)). now apply HS. }
      assert (Sh' : forall idx v, worker_at P idx v -> tshape (x' v) = block_shape (balanced X (p_shape P)) idx /\
                                                  tshape (dy v) = block_shape (balanced (tshape dY) (p_shape P)) idx).
      { intros i u Hu. split; [now apply HS'|]. now apply Sh. }
      assert (HO' : forall v, In v world -> ~ In v (p_ranks P) -> tshape (dy v) = tshape (x' v)).
      { intros u _ Hu. unfold x'. apply is_active_false in Hu. now rewrite Hu. }
      pose proof (setup_same exact_types P a X shape (fun v => tshape (x' v)) HP HL (us_nonneg _ _ _ _ HU) HS HS') as Es.
      assert (Eg : upsample_gradient exact_types P a shape dy (halo_result gb) v = upsample_gradient exact_types P a (fun v => tshape (x' v)) dy (halo_result gb) v).
      { unfold upsample_gradient. now rewrite Es. }
      rewrite Eg.
      apply (gradient_blocks weight world P a X dY x' dy back Hw1 HN HI HU NR HS' HO' HDy _ _ _ Hpl) with (pre' := pre) (init' := init) (eager' := eager); auto.
      * intros u. unfold back, upsample_back_argument, upsample_cotangent. rewrite Es. destruct (in_dec Z.eq_dec u (p_ranks P)) as [Hr|Hr].
        -- destruct (worker_at_exists P u HP Hr) as [i Hi].
           pose proof (proj1 (proj2 (gr_pad weight world P a X (tshape dY) x dy HI HU Sh i u Hi))) as Q1.
           pose proof (proj1 (proj2 (gr_pad weight world P a X (tshape dY) x' dy HI HU Sh' i u Hi))) as Q2.
           fold shape in Q1. fold arg in Q1. rewrite Q1, Q2. reflexivity.
        -- pose proof (gr_inactive P a x' u Hr) as E. rewrite E. reflexivity.
      * eapply Forall_impl; [|exact Hpre]. intros cl Hcl i' v' Hv'. pose proof (Hcl v' (worker_at_In P i' v' Hv')) as E.
        pose proof (proj1 (proj2 (gr_pad weight world P a X (tshape dY) x dy HI HU Sh i' v' Hv'))) as E'. fold shape in E'. fold arg in E'.
        cbv zeta. destruct cl; congruence.
    + intros v _ Hr. pose proof (gr_inactive P a x v Hr) as E. fold shape in E. unfold upsample_gradient. rewrite E. reflexivity.
Qed.

(** Missing for arbitrary parameters: nothing; it is refuted below, as C48 is. *)
Theorem C69_upsample_gradients_partial : C69_statement neighbours_only.
Proof. exact C69_proof. Qed.

Theorem C69_upsample_gradients_divisible : C69_statement divisible.
Proof.
  intros R weight world P a X dY x dy Hw1 HN HI HP HL HD HX EY E0 E1 Hs Hb Hw Hdv.
  refine (C69_proof R weight world P a X dY x dy Hw1 HN HI HP HL HD HX EY E0 E1 Hs Hb Hw _).
  apply divisible_neighbours; auto. apply HP.
Qed.

Theorem C69_sequential_gradient : C69_gradient_statement.
Proof. exact C69_gradient_proof. Qed.

(** The case of [C48_all_parameters_refuted]: output 6 is computed from element 3,
    which worker 1 holds, but the gradient never gets there. *)
Definition rb_dY : tensor Zring := unit_at [1; 1; 14] [0; 0; 6].
Definition rb_dy (v : Z) : tensor Zring := block (balanced [1; 1; 14] [1; 1; 7]) [0; 0; v] rb_dY.
Definition rb_back := upsample_back_argument (R := Zring) exact_types (fun _ => 1) rf_P rf_a rf_shape (fun v => tshape (rf_arg v)) rb_dy.

Lemma rb_blocks : holds_blocks rf_P (balanced [1; 1; 14] [1; 1; 7]) rb_dY rb_dy.
Proof. split; [reflexivity|]. intros idx v Hv. destruct (row_workers 7 _ _ Hv) as [-> _]. apply teq_refl. Qed.

Lemma rf_shapes idx v : worker_at rf_P idx v -> tshape (rf_x v) = block_shape (balanced [1; 1; 9] (p_shape rf_P)) idx.
Proof. intros Hv. destruct (row_workers 7 _ _ Hv) as [-> _]. reflexivity. Qed.

Theorem C69_all_parameters_refuted : ~ C69_statement (fun _ _ _ _ => True).
Proof.
  intros C. pose proof (C Zring (fun _ => 1) (p_ranks rf_P) rf_P rf_a [1; 1; 9] rb_dY rf_x rb_dy eq_refl ltac:(repeat constructor; cbn; lia)
    ltac:(auto) rf_part eq_refl ltac:(cbn; lia) ltac:(repeat constructor) eq_refl eq_refl eq_refl rf_sensible rf_enough (or_introl eq_refl)
    I rf_shapes rb_blocks) as (_ & _ & K). clear C.
  pose proof (g_given (p_ranks rf_P) rf_P rf_a rf_G rf_Y ltac:(repeat constructor; cbn; lia) ltac:(auto) rf_usable) as Gi.
  pose proof (g_planned (p_ranks rf_P) rf_P rf_a rf_G rf_Y rf_x ltac:(auto) rf_usable rf_blocks) as Pl.
  destruct (async_ends _ _ _ _ (fun _ _ _ _ => true) (halo_async _ _ _ _ _ _ _ Gi Pl [HBackward rb_back]
    (fun _ => mkhst (mkt [] (fun _ => 0 : car Zring)) (mkt [] (fun _ => 0 : car Zring)) (mkt [] (fun _ => 0 : car Zring)) []))) as [g Hg].
  destruct (K [] _ _ g (Forall_nil _) Hg) as [K1 _]. clear K.
  destruct (K1 [0; 0; 1] 1) as (t & Et & Es & Ev); [split; [repeat constructor; lia|reflexivity]|].
  destruct (ends_result (p_ranks rf_P) rf_P (balanced (tshape rf_G) (p_shape rf_P)) (up_halos rf_P rf_a (tshape rf_G) (tshape rf_Y)) _ _ _ Gi Pl
    (map (backward_round rf_P (fun v => tshape (rf_arg v)) (fun v => e_recv (rf_plan v)) (fun v => e_send (rf_plan v))) (rev (seq 0 3)))
    rb_back [] (HBackward rb_back) _ _ g 1 ltac:(simpl; auto 6) eq_refl Hg) as (S0 & Er & ES).
  subst S0. destruct Er as [Esh Ev'].
  specialize (Ev [0; 0; 1]). rewrite Es in Ev.
  specialize (Ev ltac:(vm_compute; repeat constructor; discriminate)).
  match type of Ev with _ = ?r => let r' := eval vm_compute in r in change (tat t [0; 0; 1] = r') in Ev end.
  revert Et. unfold upsample_gradient.
  match goal with |- context [upsample_setup ?T ?P ?a ?s ?v] =>
    let u := eval vm_compute in (upsample_setup T P a s v) in replace (upsample_setup T P a s v) with u by (vm_compute; reflexivity) end.
  cbn [rbind v_info e_halo]. 
  assert (Sh : tshape (halo_result g 1) = [1; 1; 3]) by (rewrite Esh; vm_compute; reflexivity).
  assert (X : tat (halo_result g 1) [0; 0; 2] = 0) by (rewrite Ev'; vm_compute; reflexivity).
  clear Ev' Esh K1 Hg Gi Pl Es. revert Sh X. generalize (halo_result g 1). intros h Sh X.
  unfold pad_backward. rewrite Sh.
  match goal with |- context [f_pad ?v ?p ?d h] => let p' := eval vm_compute in p in change p with p' end.
  cbn [length f_pad]. intros Et.
  match type of Et with (if ?c then _ else _) = _ => change c with false in Et; cbv iota in Et end.
  injection Et as <-. revert Ev. unfold pad_dim. cbn [tat tshape]. rewrite ?Sh. cbn.
  change (tat h [0; 0; 2] = 0) in X. revert X.
  assert (E : forall z, z = 0 -> z = 1 -> False) by (intros z -> Hz; discriminate). exact (E _).
Qed.

(** The five elements to nine on three workers of C48 and C49. *)
Definition gx_dY : tensor Qring := @mkt Qring [1; 1; 9] (fun i => of_Z (nth 2 i 0 - 3)).

Example C69_example :
  let world := [0; 1; 2; 3] in
  NoDup world /\ (forall v, In v (p_ranks ex_P) -> In v world) /\ part_ok ex_P /\
  upsample_output_shape ex_a [1; 1; 5] = Ok (tshape gx_dY) /\ sensible (asked ex_a) 5 9 /\
  neighbours_only ex_P (asked ex_a) [1; 1; 5] (tshape gx_dY) /\
  (forall idx v, worker_at ex_P idx v -> tshape (ex_x v) = block_shape (balanced [1; 1; 5] (p_shape ex_P)) idx) /\
  holds_blocks ex_P (balanced (tshape gx_dY) (p_shape ex_P)) gx_dY gx_dy /\
  (* the gradients of the outputs are -3, ..., 5 *)
  show (upsample_from (R := Qring) (asked ex_a) (fun w => w) [1; 1; 5] gx_dY) =
    ([1; 1; 5], [-40 # 9; -14 # 9; 17 # 9; 46 # 9; 8]%Q) /\
  map (fun v => gx_shows (upsample_gradient exact_types ex_P ex_a gx_shape gx_dy (gx_run (HBackward gx_back)) v)) [0; 1; 2] =
    [[-40 # 9; -14 # 9]; [17 # 9; 46 # 9]; [8]]%Q /\
  (* and of the elements 0, 1, 4, 9, 16 there are the outputs of C48 *)
  show (upsample_to (R := Qring) (asked ex_a) (fun w => w) [1; 1; 9] ex_G) =
    ([1; 1; 9], [0; 1 # 3; 8 # 9; 7 # 3; 4; 61 # 9; 88 # 9; 41 # 3; 16]%Q).
Proof.
  cbv zeta. split; [repeat constructor; cbn; lia|]. split; [intros v Hv; cbn in *; tauto|].
  split; [split; [repeat constructor; cbn; lia|]; split; [discriminate|]; split; [repeat constructor|reflexivity]|].
  split; [reflexivity|]. split; [vm_compute; auto|]. split; [exact ex_neighbours|].
  split; [intros idx v Hv; destruct (row_workers 3 _ _ Hv) as [-> _]; reflexivity|].
  split.
  { split; [reflexivity|]. intros idx v Hv. destruct (row_workers 3 _ _ Hv) as [-> Hr]. cbn in Hr.
    unfold gx_dy. destruct (Z.eqb_spec v 3); [lia|apply teq_refl]. }
  split; [|split]; vm_compute; reflexivity.
Qed.

Print Assumptions C69_upsample_gradients_partial.
Print Assumptions C69_upsample_gradients_divisible.
Print Assumptions C69_all_parameters_refuted.
Print Assumptions C69_sequential_gradient.
