(** Gradients of distributed batch normalisation: C56. *)

From Coq Require Import QArith Qcanon.
From Verif Require Import Prelude SpecIndex SpecLayout SpecPartition ModelSlicing ProofSlicing ProofDecomposition ModelPartition ProofPartition
  Ring Tensor ModelCollectives Blocks ProofRepartition PropRepartition ModelBatchNorm SpecBatchNorm ProofBatchNorm PropBatchNorm
  SpecDual ModelBatchNormGrad ProofBatchNormGrad.

Open Scope Z_scope.

(** The output of the sequential layer when its input and parameters move. *)
Definition moving_output {R : CRing} (A : arith R) (eps : R) (affine track training : bool) (q : running R)
  (gamma beta gamma' beta' : Z -> R) (G G' : tensor R) : tensor (Dual R) :=
  normalised (R := Dual R) (dual_arith A) (fixed eps) affine track training (fun k => (gamma k, gamma' k)) (fun k => (beta k, beta' k))
    (mkrun (R := Dual R) (fun k => fixed (q_mean q k)) (fun k => fixed (q_var q k)) (q_seen q)) (moving G G').

(** [dX], [dgamma] and [dbeta] are the gradients of the sequential layer for the
    gradient [dY] of its output: in whatever directions its input and parameters move,
    the rate of change of the loss is their product with the directions. *)
Definition bn_gradients {R : CRing} (A : arith R) (eps : R) (affine track training : bool) (q : running R)
  (gamma beta : Z -> R) (G dY dX : tensor R) (dgamma dbeta : Z -> R) : Prop :=
  tshape dX = tshape G /\
  forall (G' : tensor R) (gamma' beta' : Z -> R),
  inner dY (rate (moving_output A eps affine track training q gamma beta gamma' beta' G G')) =
  radd (inner dX G')
       (sumf (zrange (nth 1 (tshape G) 0)) (fun k => radd (rmul (dgamma k) (gamma' k)) (rmul (dbeta k) (beta' k)))).

(** Division is multiplication with an inverse. *)
Definition linear_division {R : CRing} (A : arith R) : Prop := forall a b, adiv A a b = rmul a (adiv A rone b).

Definition C56_statement : Prop :=
  forall (R : CRing) (A : arith R) P num_features eps momentum affine track dt rg q st (c : bncall R) (s : step R) (dY : tensor R) dy,
  part_ok P -> (2 <= length (p_shape P))%nat -> 0 <= num_features -> linear_division A ->
  distributes P num_features affine c s -> tracks P num_features momentum q st ->
  holds_blocks P (s_layout s) dY dy ->
  exists dX dgamma dbeta,
    bn_gradients A eps affine track (s_training s) q (s_gamma s) (s_beta s) (s_input s) dY dX dgamma dbeta /\
    (forall idx v, worker_at P idx v -> exists t,
       bn_input_gradient A P num_features eps momentum affine track dt rg st c dy v = Ok t /\ teq t (block (s_layout s) idx dX)) /\
    let d := (length (p_shape P) - 2)%nat in
    let e := balanced1 num_features (nth 1 (p_shape P) 0) in
    (affine = true -> forall k v, worker_at P (0 :: k :: repeat 0 d) v ->
       (exists t, bn_gamma_gradient A P num_features eps momentum track dt rg st c dy v = Ok t /\ teq t (channels d e k dgamma)) /\
       (exists t, bn_beta_gradient P dt rg c dy v = Ok t /\ teq t (channels d e k dbeta))).

(** Nothing else is the gradient of the sequential layer. *)
Definition C56_unique_statement : Prop :=
  forall (R : CRing) (A : arith R) eps affine track training q gamma beta (G dY dX dX' : tensor R) dgamma dgamma' dbeta dbeta',
  bn_gradients A eps affine track training q gamma beta G dY dX dgamma dbeta ->
  bn_gradients A eps affine track training q gamma beta G dY dX' dgamma' dbeta' ->
  teq dX dX' /\ forall k, 0 <= k < nth 1 (tshape G) 0 -> dgamma k = dgamma' k /\ dbeta k = dbeta' k.

(** While it moves, the layer's output is its output. *)
Definition C56_present_statement : Prop :=
  forall (R : CRing) (A : arith R) eps affine track training q gamma beta gamma' beta' (G G' : tensor R),
  teq (present (moving_output A eps affine track training q gamma beta gamma' beta' G G'))
      (normalised A eps affine track training gamma beta q G).

(** ** The sequential gradients *)

Section Sequential.
  Context {R : CRing}.
  Add Ring R_ring : (rth R).
  Variable A : arith R.
  Hypothesis HA : linear_division A.
  Variables (eps : R) (affine track training : bool) (q : running R) (gamma beta : Z -> R) (G dY : tensor R).

  Definition used_mean := fst (uses A track training q G).
  Definition used_var := snd (uses A track training q G).
  Definition root (k : Z) : R := asqrt A (radd (used_var k) eps).
  Definition centred (i : list Z) : R := rsub (tat G i) (used_mean (nth 1 i 0)).
  Definition normal (i : list Z) : R := adiv A (centred i) (root (nth 1 i 0)).
  Definition dnormal (i : list Z) : R := if affine then rmul (tat dY i) (gamma (nth 1 i 0)) else tat dY i.
  Definition dnumerator (i : list Z) : R := adiv A (dnormal i) (root (nth 1 i 0)).
  Definition dvar (i : list Z) : R :=
    adiv A (rmul (ropp (dnormal i)) (adiv A (normal i) (root (nth 1 i 0)))) (rmul two (root (nth 1 i 0))).
  Definition n : Z := channel_volume (tshape G).
  Definition over (F : list Z -> R) (k : Z) : R := sumf (channel_entries (tshape G) k) F.
  Definition dsquares (i : list Z) : R := rmul (adiv A (over dvar (nth 1 i 0)) (rint n)) (rmul two (centred i)).
  Definition dmean (i : list Z) : R := radd (ropp (dnumerator i)) (ropp (dsquares i)).
  Definition dinput (i : list Z) : R :=
    if negb training && track then dnumerator i
    else radd (radd (dnumerator i) (dsquares i)) (adiv A (over dmean (nth 1 i 0)) (rint n)).
  Definition dgamma (k : Z) : R := if affine then over (fun i => rmul (tat dY i) (normal i)) k else rzero.
  Definition dbeta (k : Z) : R := if affine then over (tat dY) k else rzero.

  (** Sums of dual numbers. *)
  Lemma dual_sum {I} (l : list I) (f : I -> Dual R) : sumf l f = (sumf l (fun i => fst (f i)), sumf l (fun i => snd (f i))) :> Dual R.
  Proof. induction l as [|i l IH]; [reflexivity|]. rewrite !sumf_cons, IH. reflexivity. Qed.
  Lemma dual_pos p : Pos.iter (@radd (Dual R) rone) rzero p = (Pos.iter (radd rone) rzero p, rzero) :> Dual R.
  Proof.
    induction p as [|p IH] using Pos.peano_ind; [cbn; unfold dual_add; cbn [fst snd]; f_equal; ring|].
    rewrite !Pos.iter_succ, IH. cbn [radd Dual rone]. unfold dual_add. cbn [fst snd]. f_equal. ring.
  Qed.
  Lemma dual_int k : @rint (Dual R) k = (rint k, rzero) :> Dual R.
  Proof.
    destruct k as [|p|p]; [reflexivity| |]; unfold rint; rewrite dual_pos; [reflexivity|]. cbn [ropp Dual]. unfold dual_opp. cbn [fst snd]. f_equal. ring.
  Qed.

  Variables (G' : tensor R) (gamma' beta' : Z -> R).

  (** The rates of change of the statistics. *)
  Definition mean' (k : Z) : R := if negb training && track then rzero else adiv A (over (tat G') k) (rint n).
  Definition var' (k : Z) : R :=
    if negb training && track then rzero
    else adiv A (over (fun i => rmul (rmul two (centred i)) (rsub (tat G' i) (mean' k))) k) (rint n).

  Lemma div_zero b : adiv A rzero b = rzero.
  Proof. rewrite HA. ring. Qed.

  Definition dual_running := mkrun (R := Dual R) (fun k => fixed (q_mean q k)) (fun k => fixed (q_var q k)) (q_seen q).

  Lemma dual_mean k : channel_mean (R := Dual R) (dual_arith A) (moving G G') k = (channel_mean A G k, adiv A (over (tat G') k) (rint n)).
  Proof.
    unfold channel_mean. rewrite dual_int, dual_sum. cbn [adiv dual_arith]. unfold dual_div. cbn [fst snd moving tat tshape]. f_equal.
    f_equal. unfold over. change (fun i : list Z => tat G' i) with (tat G'). ring.
  Qed.

  Lemma uses_dual k : (fst (uses (dual_arith A) track training dual_running (moving G G')) k = (used_mean k, mean' k) :> Dual R) /\
    (snd (uses (dual_arith A) track training dual_running (moving G G')) k = (used_var k, var' k) :> Dual R).
  Proof.
    unfold var', mean', used_mean, used_var, centred, used_mean, uses. destruct (negb training && track); cbn [fst snd]; [split; reflexivity|].
    split; [apply dual_mean|]. unfold channel_var. rewrite dual_int, dual_mean, dual_sum. cbn [adiv dual_arith]. unfold dual_div.
    cbn [fst snd moving tat tshape rmul rsub Dual dual_mul dual_sub]. f_equal. f_equal. fold n.
    unfold over. transitivity (rsub (sumf (channel_entries (tshape G) k) (fun i => rmul (rmul two (rsub (tat G i) (channel_mean A G k))) (rsub (tat G' i) (adiv A (sumf (channel_entries (tshape G) k) (tat G')) (rint n))))) rzero).
    - f_equal; [|ring]. apply sumf_ext. intros i _. unfold two. ring.
    - transitivity (sumf (channel_entries (tshape G) k) (fun i => rmul (rmul two (rsub (tat G i) (channel_mean A G k))) (rsub (tat G' i) (adiv A (sumf (channel_entries (tshape G) k) (tat G')) (rint n))))); [ring|].
      apply sumf_ext. intros i Hi. unfold channel_entries in Hi. apply filter_In in Hi as [_ Hi]. apply Z.eqb_eq in Hi. now rewrite Hi.
  Qed.

  (** The rate of change of the output. *)
  Definition normal' (i : list Z) : R :=
    let k := nth 1 i 0 in
    adiv A (rsub (rsub (tat G' i) (mean' k)) (rmul (normal i) (adiv A (var' k) (rmul two (root k))))) (root k).
  Definition output' (i : list Z) : R :=
    let k := nth 1 i 0 in
    if affine then radd (radd (rmul (gamma' k) (normal i)) (rmul (gamma k) (normal' i))) (beta' k) else normal' i.

  Lemma dual_entry i :
    tat (moving_output A eps affine track training q gamma beta gamma' beta' G G') i =
    (tat (normalised A eps affine track training gamma beta q G) i, output' i) :> Dual R.
  Proof.
    unfold moving_output, normalised. fold dual_running. pose proof (uses_dual (nth 1 i 0)) as [E1 E2].
    destruct (uses (dual_arith A) track training dual_running (moving G G')) as [m s]. cbn [fst snd] in E1, E2.
    assert (Eu : uses A track training q G = (used_mean, used_var)) by (unfold used_mean, used_var; destruct (uses A track training q G); reflexivity).
    rewrite Eu. cbn [tat tshape moving]. rewrite E1, E2.
    assert (Ey : adiv (dual_arith A) (@rsub (Dual R) (tat G i, tat G' i) (used_mean (nth 1 i 0), mean' (nth 1 i 0)))
                   (asqrt (dual_arith A) (@radd (Dual R) (used_var (nth 1 i 0), var' (nth 1 i 0)) (fixed eps))) = (normal i, normal' i)).
    { cbn [adiv asqrt dual_arith]. unfold dual_div, dual_sqrt, fixed. cbn [rsub radd Dual fst snd]. unfold dual_sub, dual_add. cbn [fst snd].
      unfold normal', normal, centred, root. cbn [fst snd]. f_equal. f_equal. f_equal. f_equal. f_equal. ring. }
    rewrite Ey. unfold output'. destruct affine; [|reflexivity]. cbn [radd rmul Dual]. unfold dual_add, dual_mul. cbn [fst snd]. reflexivity.
  Qed.

  (** Sums over entries and over channels. *)
  Lemma regroup (F H : list Z -> R) :
    sumf (indices (tshape G)) (fun i => rmul (F i) (over H (nth 1 i 0))) = sumf (indices (tshape G)) (fun j => rmul (H j) (over F (nth 1 j 0))).
  Proof.
    unfold over, channel_entries.
    transitivity (sumf (indices (tshape G)) (fun i => sumf (indices (tshape G)) (fun j => if nth 1 j 0 =? nth 1 i 0 then rmul (F i) (H j) else rzero))).
    - apply sumf_ext. intros i _. rewrite sumf_filter, <- sumf_mul_l. apply sumf_ext. intros j _. destruct (_ =? _); ring.
    - rewrite sumf_exchange. apply sumf_ext. intros j _. rewrite sumf_filter, <- sumf_mul_l. apply sumf_ext. intros i _.
      rewrite (Z.eqb_sym (nth 1 i 0)). destruct (_ =? _); ring.
  Qed.
  Lemma by_channel (F : list Z -> R) (h : Z -> R) : (2 <= length (tshape G))%nat ->
    sumf (indices (tshape G)) (fun i => rmul (F i) (h (nth 1 i 0))) = sumf (zrange (nth 1 (tshape G) 0)) (fun k => rmul (over F k) (h k)).
  Proof.
    intros H2. unfold over, channel_entries.
    transitivity (sumf (zrange (nth 1 (tshape G) 0)) (fun k => sumf (indices (tshape G)) (fun i => if nth 1 i 0 =? k then rmul (F i) (h k) else rzero))).
    - rewrite sumf_exchange. apply sumf_ext. intros i Hi. apply in_indices in Hi. rewrite (sumf_single _ _ (nth 1 i 0)).
      + now rewrite Z.eqb_refl.
      + apply zrange_nodup.
      + apply in_zrange. rewrite valid_index_nth in Hi. apply Hi. lia.
      + intros k _ Hk. destruct (Z.eqb_spec (nth 1 i 0) k); congruence.
    - apply sumf_ext. intros k _. rewrite sumf_filter, <- sumf_mul_r. apply sumf_ext. intros i _. destruct (_ =? _); ring.
  Qed.

  Hypothesis H2 : (2 <= length (tshape G))%nat.
  Hypothesis HY : tshape dY = tshape G.
  Notation all := (indices (tshape G)).

  Lemma normal_part : sumf all (fun i => rmul (dnormal i) (normal' i)) =
    radd (sumf all (fun i => rmul (dnumerator i) (rsub (tat G' i) (mean' (nth 1 i 0))))) (sumf all (fun i => rmul (dvar i) (var' (nth 1 i 0)))).
  Proof.
    rewrite <- sumf_add. apply sumf_ext. intros i _. unfold normal', dnumerator, dvar. cbv zeta. set (k := nth 1 i 0).
    rewrite (HA (rsub _ _) (root k)), (HA (var' k)), (HA (rmul (ropp _) _)), (HA (normal i) (root k)), (HA (dnormal i)). ring.
  Qed.

  Lemma input_part : sumf all (fun i => rmul (dnormal i) (normal' i)) = sumf all (fun i => rmul (dinput i) (tat G' i)).
  Proof.
    rewrite normal_part. unfold dinput, var', mean'. destruct (negb training && track) eqn:Em.
    - rewrite <- sumf_add. apply sumf_ext. intros i _. ring.
    - set (mk := fun k => adiv A (over (tat G') k) (rint n)).
      transitivity (radd (sumf all (fun i => rmul (dnumerator i) (rsub (tat G' i) (mk (nth 1 i 0)))))
                         (sumf all (fun i => rmul (dsquares i) (rsub (tat G' i) (mk (nth 1 i 0)))))).
      { f_equal. transitivity (sumf all (fun i => rmul (dvar i) (over (fun j => rmul (adiv A rone (rint n)) (rmul (rmul two (centred j)) (rsub (tat G' j) (mk (nth 1 j 0))))) (nth 1 i 0)))).
        - apply sumf_ext. intros i _. f_equal. change (adiv A (over (tat G') (nth 1 i 0)) (rint n)) with (mk (nth 1 i 0)). rewrite HA. unfold over. rewrite sumf_mul_l.
          transitivity (rmul (adiv A rone (rint n)) (sumf (channel_entries (tshape G) (nth 1 i 0)) (fun i0 => rmul (rmul two (centred i0)) (rsub (tat G' i0) (mk (nth 1 i 0)))))); [ring|].
          f_equal. apply sumf_ext. intros j Hj. unfold channel_entries in Hj. apply filter_In in Hj as [_ Hj]. apply Z.eqb_eq in Hj. now rewrite Hj.
        - rewrite regroup. apply sumf_ext. intros j _. unfold dsquares. rewrite (HA (over dvar _)). ring. }
      transitivity (radd (sumf all (fun i => rmul (radd (dnumerator i) (dsquares i)) (tat G' i))) (sumf all (fun i => rmul (dmean i) (mk (nth 1 i 0))))).
      { rewrite <- !sumf_add. apply sumf_ext. intros i _. unfold dmean. ring. }
      transitivity (radd (sumf all (fun i => rmul (radd (dnumerator i) (dsquares i)) (tat G' i))) (sumf all (fun i => rmul (adiv A (over dmean (nth 1 i 0)) (rint n)) (tat G' i)))).
      { f_equal. transitivity (sumf all (fun i => rmul (rmul (dmean i) (adiv A rone (rint n))) (over (tat G') (nth 1 i 0)))).
        - apply sumf_ext. intros i _. unfold mk. rewrite HA. ring.
        - rewrite regroup. apply sumf_ext. intros i _. rewrite (HA (over dmean _)). unfold over. rewrite sumf_mul_r. ring. }
      rewrite <- sumf_add. apply sumf_ext. intros i _. ring.
  Qed.

  Lemma gradients_move :
    inner dY (rate (moving_output A eps affine track training q gamma beta gamma' beta' G G')) =
    radd (inner (mkt (tshape G) dinput) G')
         (sumf (zrange (nth 1 (tshape G) 0)) (fun k => radd (rmul (dgamma k) (gamma' k)) (rmul (dbeta k) (beta' k)))).
  Proof.
    unfold inner. cbn [tshape tat rate]. rewrite HY, <- input_part.
    transitivity (sumf all (fun i => rmul (tat dY i) (output' i))); [apply sumf_ext; intros i _; now rewrite dual_entry|].
    unfold dgamma, dbeta, output'. unfold dnormal. destruct affine.
    - rewrite sumf_add, <- (by_channel (fun i => rmul (tat dY i) (normal i)) gamma' H2), <- (by_channel (tat dY) beta' H2), <- !sumf_add.
      apply sumf_ext. intros i _. ring.
    - rewrite (sumf_zero (zrange _)); [ring|]. intros k _. ring.
  Qed.
End Sequential.

Lemma sequential_gradients {R : CRing} (A : arith R) (HA : linear_division A) eps affine track training q gamma beta (G dY : tensor R) :
  (2 <= length (tshape G))%nat -> tshape dY = tshape G ->
  bn_gradients A eps affine track training q gamma beta G dY (mkt (tshape G) (dinput A eps affine track training q gamma G dY))
    (dgamma A eps affine track training q G dY) (dbeta affine G dY).
Proof. intros H2 HY. split; [reflexivity|]. intros G' gamma' beta'. now apply gradients_move. Qed.

(** ** The workers *)

(** The mean and variance that the workers use are those of the sequential layer. *)
Definition knows {R : CRing} (A : arith R) (P : part) (num_features : Z) (momentum : option R) (track : bool) (dt : Z -> Z) (rg : Z -> bool)
    (q : running R) (st : Z -> bnstate R) (c : bncall R) (s : step R) : Prop :=
  let d := (length (p_shape P) - 2)%nat in
  let e := nth 1 (s_layout s) [] in
  forall idx v, worker_at P idx v -> exists m w st', 
    bn_statistics A P num_features momentum track dt rg st c v = Ok (m, w, st') /\
    teq m (channels d e (nth 1 idx 0) (used_mean A track (s_training s) q (s_input s))) /\
    teq w (channels d e (nth 1 idx 0) (used_var A track (s_training s) q (s_input s))).

Section Knowledge.
  Context {R : CRing}.
  Variable A : arith R.
  Variables (P : part) (num_features : Z) (momentum : option R) (affine track : bool) (dt : Z -> Z) (rg : Z -> bool).
  Hypothesis HP : part_ok P.
  Hypothesis LP2 : (2 <= length (p_shape P))%nat.
  Variables (q : running R) (st : Z -> bnstate R) (c : bncall R) (s : step R).
  Hypothesis Hc : distributes P num_features affine c s.
  Notation d := (length (p_shape P) - 2)%nat.

  (** Statistics of the right extents can be updated. *)
  Lemma can_update n m w b (shape := 1 :: n :: repeat 1 d) : tshape m = shape -> tshape w = shape ->
    tshape (running_mean b) = shape -> tshape (running_var b) = shape ->
    exists b', update_running A momentum b m w = Ok b'.
  Proof.
    intros Em Ew Erm Erv.
    assert (X : forall g (t t' : tensor R), tshape t = shape -> tshape t' = shape -> exists r, pointwise g t t' = Ok r).
    { intros g t t' Et Et'. destruct (pointwise_channels d g t t') as (r & Er & _); [rewrite Et; cbn; now rewrite repeat_length|now rewrite Et, Et'|]. eauto. }
    unfold update_running.
    assert (C : exists st', (let* m0 := pointwise (fun new old => adiv A (radd new (rmul (rint (inputs_seen b)) old)) (rint (inputs_seen b + 1))) m (running_mean b) in
       let* s := pointwise (fun new old => adiv A (radd new (rmul (rint (inputs_seen b)) old)) (rint (inputs_seen b + 1))) w (running_var b) in
       Ok (mkbn m0 s (inputs_seen b + 1))) = Ok st').
    { edestruct X as (r1 & ->); [exact Em|exact Erm|]. edestruct X as (r2 & ->); [exact Ew|exact Erv|]. cbn [rbind]. eauto. }
    destruct momentum as [a|]; [|exact C]. destruct (azero A a); [exact C|].
    edestruct X as (r1 & ->); [exact Erm|exact Em|]. edestruct X as (r2 & ->); [exact Erv|exact Ew|]. cbn [rbind]. eauto.
  Qed.

  Lemma tracks_knows : tracks P num_features momentum q st -> knows A P num_features momentum track dt rg q st c s.
  Proof.
    intros Hst idx v Hv. pose proof Hc as (_ & (_ & _ & He) & _).
    destruct (statistics_ok A P num_features momentum affine track dt rg HP LP2 c s q st Hc Hst idx v Hv) as (m & w & st' & E & Hm & Hw & _).
    - intros _ _ m w [Em _] [Ew _]. destruct (Hst idx v Hv) as ([T1 _] & [T2 _] & _). cbn [channels tshape] in *.
      eapply can_update; eassumption.
    - exists m, w, st'. rewrite He. auto.
  Qed.

  (** In training the statistics of earlier calls do not matter, only their extents. *)
  Lemma training_knows : s_training s = true ->
    (forall idx v, worker_at P idx v -> let shape := 1 :: nth (Z.to_nat (nth 1 idx 0)) (nth 1 (s_layout s) []) 0 :: repeat 1 d in
       tshape (running_mean (st v)) = shape /\ tshape (running_var (st v)) = shape) ->
    knows A P num_features momentum track dt rg q st c s.
  Proof.
    intros Htr Hsh idx v Hv. unfold used_mean, used_var, uses. rewrite Htr. cbn [negb andb fst snd].
    pose proof Hc as (Ht & HF & HB & _). pose proof HF as (HL & HW & He). rewrite Htr in Ht.
    assert (Hd : length (p_shape P) = S (S d)) by (clear - LP2; lia).
    unfold bn_statistics. rewrite (st_part P d HP Hd). cbn [rbind].
    rewrite (volume_ok P (s_layout s) HP HL HW (s_input s) _ HB idx v Hv). cbn [rbind].
    rewrite (fits_channels P num_features dt rg HP LP2 (s_layout s) HF), Z.eqb_refl. cbn [negb]. rewrite Ht. cbn [negb andb].
    pose proof (mean_channels A P d (s_layout s) dt rg HP Hd HL HW (s_input s) _ HB idx v Hv) as (m & Em & Hm).
    pose proof (var_channels A P d (s_layout s) dt rg HP Hd HL HW (s_input s) _ HB idx v Hv) as (w & Ew & Hw).
    change (fun u => match global_shape P (k_input c) u with Ok s0 => feature_volume s0 | Raise _ => 0 end) with (vol P (k_input c)).
    rewrite Em. cbn [rbind]. rewrite Ew. cbn [rbind]. destruct track; [|exists m, w, (st v); auto].
    destruct (Hsh idx v Hv) as [S1 S2]. destruct Hm as [Sm Vm], Hw as [Sw Vw].
    destruct (can_update _ m w (st v) Sm Sw S1 S2) as [b' Eb]. rewrite Eb. cbn [rbind]. exists m, w, b'. split; [reflexivity|]. now split; split.
  Qed.
End Knowledge.

Section Workers.
  Context {R : CRing}.
  Add Ring R_ring3 : (rth R).
  Variable A : arith R.
  Hypothesis HA : linear_division A.
  Variables (P : part) (num_features : Z) (eps : R) (momentum : option R) (affine track : bool) (dt : Z -> Z) (rg : Z -> bool).
  Hypothesis HP : part_ok P.
  Hypothesis LP2 : (2 <= length (p_shape P))%nat.
  Variables (q : running R) (st : Z -> bnstate R) (c : bncall R) (s : step R) (dY : tensor R) (dy : Z -> tensor R).
  Hypothesis Hc : distributes P num_features affine c s.
  Hypothesis Hst : knows A P num_features momentum track dt rg q st c s.
  Hypothesis Hdy : holds_blocks P (s_layout s) dY dy.
  Notation d := (length (p_shape P) - 2)%nat.
  Notation L := (s_layout s).
  Notation G := (s_input s).
  Notation e := (nth 1 (s_layout s) []).
  Lemma LPd : length (p_shape P) = S (S d).
  Proof. clear - LP2. lia. Qed.
  Lemma sumf_opp {I} (l : list I) (f : I -> R) : sumf l (fun i => ropp (f i)) = ropp (sumf l f).
  Proof. induction l as [|i l IH]; [cbn; ring|]. rewrite !sumf_cons, IH. ring. Qed.

  Lemma w_fits : layout_ok L /\ layout_workers L = p_shape P /\ e = balanced1 num_features (nth 1 (p_shape P) 0).
  Proof. destruct Hc as (_ & HF & _). exact HF. Qed.
  Lemma w_input : holds_blocks P L G (k_input c).
  Proof. destruct Hc as (_ & _ & HB & _). exact HB. Qed.
  Lemma w_shape : tshape G = layout_shape L.
  Proof. apply w_input. Qed.
  Lemma w_volume u : In u (p_ranks P) -> bn_volume P c u = n G.
  Proof. destruct w_fits as (HL & HW & _). apply (vol_ok P L HP HL HW G _ w_input). Qed.

  Notation um := (used_mean A track (s_training s) q G).
  Notation uv := (used_var A track (s_training s) q G).
  Notation rt := (root A eps track (s_training s) q G).
  Notation mean_of := (bn_mean A P num_features momentum track dt rg st c).
  Notation root_of := (bn_root A P num_features eps momentum track dt rg st c).
  Notation centred_of := (bn_centred A P num_features momentum track dt rg st c).
  Notation normal_of := (bn_normal A P num_features eps momentum track dt rg st c).
  Notation Psum := (storage P d).

  Lemma w_mean idx v : worker_at P idx v -> exists m, mean_of v = Ok m /\ teq m (channels d e (nth 1 idx 0) um).
  Proof. intros Hv. destruct (Hst idx v Hv) as (m & w & st' & E & Hm & _). unfold bn_mean. rewrite E. cbn [rbind fst]. eauto. Qed.
  Lemma w_root idx v : worker_at P idx v -> exists r, root_of v = Ok r /\ teq r (channels d e (nth 1 idx 0) rt).
  Proof.
    intros Hv. destruct (Hst idx v Hv) as (m & w & st' & E & _ & Hw). unfold bn_root, bn_var. rewrite E. cbn [rbind fst snd].
    eexists. split; [reflexivity|]. destruct Hw as [Sw Vw]. split; [exact Sw|]. intros i Hi. cbn [tmap tat tshape] in *. rewrite Vw by auto. reflexivity.
  Qed.

  (** Global tensors of the extents of the input. *)
  Notation glob f := (mkt (layout_shape L) f).

  Lemma w_channels (g : R -> R -> R) F f idx v t m : worker_at P idx v -> teq t (block L idx (glob F)) -> teq m (channels d e (nth 1 idx 0) f) ->
    exists r, pointwise g t m = Ok r /\ teq r (block L idx (glob (fun i => g (F i) (f (nth 1 i 0))))).
  Proof.
    intros Hv Ht Hm. destruct w_fits as (HL & HW & _).
    exact (block_channels P d L dt rg LPd HW (glob F) g f idx v t m Hv Ht Hm).
  Qed.
  Lemma w_blocks (g : R -> R -> R) F H idx t t' : teq t (block L idx (glob F)) -> teq t' (block L idx (glob H)) ->
    exists r, pointwise g t t' = Ok r /\ teq r (block L idx (glob (fun i => g (F i) (H i)))).
  Proof. intros Ht Ht'. exact (pointwise_blocks g L idx (glob F) (glob H) t t' Ht Ht'). Qed.
  Lemma w_given (T : tensor R) (t : Z -> tensor R) idx v : holds_blocks P L T t -> worker_at P idx v -> teq (t v) (block L idx (glob (tat T))).
  Proof. intros [_ HB] Hv. destruct (HB idx v Hv) as [E V]. split; [exact E|exact V]. Qed.

  Lemma w_centred idx v : worker_at P idx v -> exists r, centred_of v = Ok r /\ teq r (block L idx (glob (centred A track (s_training s) q G))).
  Proof.
    intros Hv. destruct (w_mean idx v Hv) as (m & Em & Hm). unfold bn_centred. rewrite Em. cbn [rbind].
    exact (w_channels rsub _ _ idx v _ _ Hv (w_given _ _ idx v w_input Hv) Hm).
  Qed.
  Lemma w_normal idx v : worker_at P idx v -> exists r, normal_of v = Ok r /\ teq r (block L idx (glob (normal A eps track (s_training s) q G))).
  Proof.
    intros Hv. destruct (w_centred idx v Hv) as (x & Ex & Hx), (w_root idx v Hv) as (r & Er & Hr). unfold bn_normal. rewrite Ex, Er. cbn [rbind].
    exact (w_channels (adiv A) _ _ idx v _ _ Hv Hx Hr).
  Qed.

  Lemma w_parameter (t : Z -> tensor R) f idx v : parameter P num_features f t -> worker_at P idx v ->
    exists r, broadcast_layer Psum P false false false true dt rg t v = Ok r /\ teq r (channels d e (nth 1 idx 0) f).
  Proof.
    intros [Q1 Q2] Hv. destruct w_fits as (_ & _ & He). rewrite <- He in Q1.
    exact (affine_channels P d L dt rg HP LPd t f idx v Q1 Q2 Hv).
  Qed.

  Notation dN := (dnormal affine (s_gamma s) dY).
  Lemma w_dnormal idx v : worker_at P idx v -> exists r, normal_grad P affine dt rg c dy Psum v = Ok r /\ teq r (block L idx (glob dN)).
  Proof.
    intros Hv. unfold normal_grad, dnormal. case_eq affine; intros Ea.
    - pose proof Hc as (_ & _ & _ & Haff). destruct (Haff Ea) as [Hg _].
      destruct (w_parameter _ _ idx v Hg Hv) as (g & Eg & Hg'). rewrite Eg. cbn [rbind].
      exact (w_channels rmul _ _ idx v _ _ Hv (w_given _ _ idx v Hdy Hv) Hg').
    - eexists. split; [reflexivity|]. exact (w_given _ _ idx v Hdy Hv).
  Qed.

  Notation dA := (dnumerator A eps affine track (s_training s) q (s_gamma s) G dY).
  Lemma w_dnumerator idx v : worker_at P idx v ->
    exists r, numerator_grad A P num_features eps momentum affine track dt rg st c dy Psum v = Ok r /\ teq r (block L idx (glob dA)).
  Proof.
    intros Hv. destruct (w_dnormal idx v Hv) as (g & Eg & Hg), (w_root idx v Hv) as (r & Er & Hr). unfold numerator_grad. rewrite Eg, Er. cbn [rbind].
    exact (w_channels (adiv A) _ _ idx v _ _ Hv Hg Hr).
  Qed.

  Notation dV := (dvar A eps affine track (s_training s) q (s_gamma s) G dY).
  Notation var_grad_of := (var_grad A P num_features eps momentum affine track dt rg st c dy Psum).
  Lemma w_dvar idx v : worker_at P idx v -> exists r, var_grad_of v = Ok r /\ summed d L dV idx r.
  Proof.
    intros Hv. destruct w_fits as (HL & HW & _).
    destruct (w_dnormal idx v Hv) as (g & Eg & Hg), (w_normal idx v Hv) as (y & Ey & Hy), (w_root idx v Hv) as (r & Er & Hr).
    unfold var_grad. rewrite Eg, Ey, Er. cbn [rbind].
    destruct (w_channels (adiv A) _ _ idx v _ _ Hv Hy Hr) as (p & Ep & Hp). rewrite Ep. cbn [rbind].
    destruct (w_blocks (fun a b => rmul (ropp a) b) _ _ idx _ _ Hg Hp) as (h & Eh & Hh). rewrite Eh. cbn [rbind].
    destruct (unstretch_summed P d L dt rg LPd HW _ idx v h _ r Hv Hh Hr) as [Su Vu].
    pose proof Hr as [Sr _]. cbn [channels tshape] in Sr.
    destruct (pointwise_channels d (fun a b => adiv A a (rmul two b)) (unstretch (tshape r) h) r) as (t & Et & St & Vt).
    { rewrite Su. cbn [length]. now rewrite repeat_length. }
    { rewrite Su. exact Sr. }
    exists t. split; [exact Et|]. split; [congruence|]. intros ch Hch. rewrite Vt by (rewrite Su; apply channel_index; eauto).
    cbn [pt nth]. fold (pt d ch). rewrite Vu by exact Hch. rewrite (channels_at d e _ _ _ _ Hr) by exact Hch.
    rewrite HA, <- sumf_mul_r. apply sumf_ext. intros p0 Hp0. destruct (entry_channel P d L LPd HW idx ch p0 (proj1 Hv) Hp0) as [_ Ech].
    unfold dvar. rewrite (HA (rmul (ropp _) _)). rewrite Ech. reflexivity.
  Qed.

  Notation dS := (dsquares A eps affine track (s_training s) q (s_gamma s) G dY).
  Notation squares_grad_of := (squares_grad A P num_features eps momentum affine track dt rg st c dy Psum).
  Lemma w_dsquares idx v : worker_at P idx v -> exists r, squares_grad_of v = Ok r /\ teq r (block L idx (glob dS)).
  Proof.
    intros Hv. destruct w_fits as (HL & HW & _). destruct (w_dvar idx v Hv) as (g & Eg & _). unfold squares_grad. rewrite Eg. cbn [rbind].
    set (t := fun u => value_or (squares (k_input c) mean_of u)). set (h := fun u => value_or (var_grad_of u)).
    assert (Ht : holds_blocks P L (glob (fun i => rmul (centred A track (s_training s) q G i) (centred A track (s_training s) q G i))) t).
    { split; [reflexivity|]. intros i u Hu. destruct (w_centred i u Hu) as (x & Ex & [Sx Vx]). unfold t, squares.
      unfold bn_centred in Ex. destruct (mean_of u); [|discriminate]. cbn [rbind] in Ex |- *. rewrite Ex. cbn [rbind value_or].
      split; [exact Sx|]. intros p Hp. cbn [tmap tat tshape] in *. rewrite Vx by auto. reflexivity. }
    destruct (mean_back A P d L dt rg HP LPd HL HW c (n G) w_volume _ t h dV Ht) with (idx := idx) (v := v) as (m & Em & Hm).
    { intros i u Hu. destruct (w_dvar i u Hu) as (g' & Eg' & Hg'). unfold h. rewrite Eg'. exact Hg'. }
    { exact Hv. }
    rewrite Em. cbn [rbind]. destruct (w_centred idx v Hv) as (x & Ex & Hx). rewrite Ex. cbn [rbind].
    destruct (w_blocks (fun a b => rmul a (rmul two b)) _ _ idx _ _ Hm Hx) as (r & Er & Hr). exists r. split; [exact Er|].
    unfold dsquares, over. rewrite w_shape. exact Hr.
  Qed.

  Notation dM := (dmean A eps affine track (s_training s) q (s_gamma s) G dY).
  Notation mean_grad_of := (mean_grad A P num_features eps momentum affine track dt rg st c dy Psum).
  Lemma w_dmean idx v : worker_at P idx v -> exists r, mean_grad_of v = Ok r /\ summed d L dM idx r.
  Proof.
    intros Hv. destruct w_fits as (HL & HW & _). destruct (w_mean idx v Hv) as (m & Em & Hm).
    destruct (w_dnumerator idx v Hv) as (a & Ea & Ha), (w_dsquares idx v Hv) as (b & Eb & Hb).
    unfold mean_grad. rewrite Em, Ea, Eb. cbn [rbind].
    destruct (unstretch_summed P d L dt rg LPd HW _ idx v a _ m Hv Ha Hm) as [Sa Va].
    destruct (unstretch_summed P d L dt rg LPd HW _ idx v b _ m Hv Hb Hm) as [Sb Vb].
    destruct (pointwise_channels d radd (tmap ropp (unstretch (tshape m) a)) (tmap ropp (unstretch (tshape m) b))) as (t & Et & St & Vt).
    { cbn [tmap tshape]. rewrite Sa. cbn [length]. now rewrite repeat_length. }
    { cbn [tmap tshape]. rewrite Sa, Sb. reflexivity. }
    exists t. split; [exact Et|]. cbn [tmap tshape] in St, Vt. rewrite Sa in St, Vt. split; [exact St|]. intros ch Hch.
    rewrite Vt by (apply channel_index; eauto). cbn [pt nth]. fold (pt d ch). cbn [tmap tat]. rewrite Va, Vb by exact Hch. unfold dmean.
    rewrite sumf_add, !sumf_opp. reflexivity.
  Qed.

  Notation dX := (dinput A eps affine track (s_training s) q (s_gamma s) G dY).
  Lemma w_dinput idx v : worker_at P idx v ->
    exists r, bn_input_gradient A P num_features eps momentum affine track dt rg st c dy v = Ok r /\ teq r (block L idx (glob dX)).
  Proof.
    intros Hv. destruct w_fits as (HL & HW & _). unfold bn_input_gradient. rewrite (st_part P d HP LPd). cbn [rbind]. unfold input_grad.
    destruct (w_dnumerator idx v Hv) as (a & Ea & Ha). rewrite Ea. cbn [rbind]. unfold dinput.
    pose proof Hc as (Ht & _). rewrite Ht. destruct (negb (s_training s) && track) eqn:Em; [eauto|].
    destruct (w_dsquares idx v Hv) as (b & Eb & Hb), (w_dmean idx v Hv) as (m & Emg & _). rewrite Eb, Emg. cbn [rbind].
    destruct (mean_back A P d L dt rg HP LPd HL HW c (n G) w_volume G (k_input c) (fun u => value_or (mean_grad_of u)) dM w_input) with (idx := idx) (v := v) as (x & Ex & Hx).
    { intros i u Hu. destruct (w_dmean i u Hu) as (g' & Eg' & Hg'). rewrite Eg'. exact Hg'. }
    { exact Hv. }
    rewrite Ex. cbn [rbind]. destruct (w_blocks radd _ _ idx _ _ Ha Hb) as (ab & Eab & Hab). rewrite Eab. cbn [rbind].
    destruct (w_blocks radd _ _ idx _ _ Hab Hx) as (r & Er & Hr). exists r. split; [exact Er|]. unfold over. rewrite w_shape. exact Hr.
  Qed.

  (** Backward through the broadcast of a parameter. *)
  Lemma w_parameter_back (t g : Z -> tensor R) f F : parameter P num_features f t ->
    (forall idx u, worker_at P idx u -> summed d L F idx (g u)) ->
    forall k v, worker_at P (pt d k) v -> exists r, broadcast_layer_backward Psum P false false false true dt rg t g v = Ok r /\
      teq r (channels d e k (fun j => sumf (channel_entries (layout_shape L) j) F)).
  Proof.
    intros [Q1 Q2] Hg. destruct w_fits as (HL & HW & He). rewrite <- He in Q1.
    destruct (broadcast_back P d L dt rg HP LPd HL HW t g F) as [B _]; auto.
    intros k u Hu. destruct (Q1 k u Hu) as [E _]. exact E.
  Qed.

  Lemma w_gamma k v : affine = true -> worker_at P (pt d k) v ->
    exists r, bn_gamma_gradient A P num_features eps momentum track dt rg st c dy v = Ok r /\
      teq r (channels d e k (dgamma A eps affine track (s_training s) q G dY)).
  Proof.
    intros Haf Hk. destruct w_fits as (HL & HW & _). pose proof Hc as (_ & _ & _ & Haff). destruct (Haff Haf) as [Hg _].
    set (F := fun i => rmul (tat dY i) (normal A eps track (s_training s) q G i)).
    assert (B : forall idx u, worker_at P idx u -> exists r, gamma_copy_grad A P num_features eps momentum track dt rg st c dy Psum u = Ok r /\ summed d L F idx r).
    { intros idx u Hu. unfold gamma_copy_grad. destruct (w_parameter _ _ idx u Hg Hu) as (g & Eg & Hg'). rewrite Eg. cbn [rbind].
      destruct (w_normal idx u Hu) as (y & Ey & Hy). rewrite Ey. cbn [rbind].
      destruct (w_blocks rmul _ _ idx _ _ (w_given _ _ idx u Hdy Hu) Hy) as (h & Eh & Hh). rewrite Eh. cbn [rbind].
      eexists. split; [reflexivity|]. exact (unstretch_summed P d L dt rg LPd HW _ idx u h _ g Hu Hh Hg'). }
    unfold bn_gamma_gradient. rewrite (st_part P d HP LPd). cbn [rbind]. destruct (B _ _ Hk) as (r0 & E0 & _). rewrite E0. cbn [rbind].
    unfold dgamma, over. rewrite Haf, w_shape. apply (w_parameter_back (k_gamma c) _ (s_gamma s)); [exact Hg| |exact Hk].
    intros idx u Hu. destruct (B idx u Hu) as (r & Er & Hr). rewrite Er. exact Hr.
  Qed.
  Lemma w_beta k v : affine = true -> worker_at P (pt d k) v ->
    exists r, bn_beta_gradient P dt rg c dy v = Ok r /\ teq r (channels d e k (dbeta affine G dY)).
  Proof.
    intros Haf Hk. destruct w_fits as (HL & HW & _). pose proof Hc as (_ & _ & _ & Haff). destruct (Haff Haf) as [_ Hb].
    assert (B : forall idx u, worker_at P idx u -> exists r, beta_copy_grad P dt rg c dy Psum u = Ok r /\ summed d L (tat dY) idx r).
    { intros idx u Hu. unfold beta_copy_grad. destruct (w_parameter _ _ idx u Hb Hu) as (g & Eg & Hg'). rewrite Eg. cbn [rbind].
      eexists. split; [reflexivity|]. exact (unstretch_summed P d L dt rg LPd HW _ idx u _ _ g Hu (w_given _ _ idx u Hdy Hu) Hg'). }
    unfold bn_beta_gradient. rewrite (st_part P d HP LPd). cbn [rbind]. destruct (B _ _ Hk) as (r0 & E0 & _). rewrite E0. cbn [rbind].
    unfold dbeta, over. rewrite Haf, w_shape. apply (w_parameter_back (k_beta c) _ (s_beta s)); [exact Hb| |exact Hk].
    intros idx u Hu. destruct (B idx u Hu) as (r & Er & Hr). rewrite Er. exact Hr.
  Qed.
End Workers.

Lemma C56_proof : C56_statement.
Proof.
  intros R A P num_features eps momentum affine track dt rg q st c s dY dy HP LP2 Hn HA Hc Hst Hdy.
  pose proof (tracks_knows A P num_features momentum affine track dt rg HP LP2 q st c s Hc Hst) as Hkn.
  exists (mkt (tshape (s_input s)) (dinput A eps affine track (s_training s) q (s_gamma s) (s_input s) dY)),
    (dgamma A eps affine track (s_training s) q (s_input s) dY), (dbeta affine (s_input s) dY).
  pose proof (w_shape P num_features affine c s Hc) as HG. pose proof (w_fits P num_features affine c s Hc) as (HL & HW & He).
  split; [|split].
  - apply sequential_gradients; [exact HA| |destruct Hdy as [-> _]; congruence].
    rewrite HG. unfold layout_shape. rewrite map_length, <- layout_workers_length, HW. exact LP2.
  - intros idx v Hv. rewrite HG. exact (w_dinput A HA P num_features eps momentum affine track dt rg HP LP2 q st c s dY dy Hc Hkn Hdy idx v Hv).
  - cbv zeta. rewrite <- He. intros Haf k v Hv. split.
    + exact (w_gamma A P num_features eps momentum affine track dt rg HP LP2 q st c s dY dy Hc Hkn Hdy k v Haf Hv).
    + exact (w_beta P num_features affine dt rg HP LP2 c s dY dy Hc Hdy k v Haf Hv).
Qed.

Theorem C56_batchnorm_gradients : C56_statement.
Proof. exact C56_proof. Qed.

Section Unique.
  Context {R : CRing}.
  Add Ring R_ring4 : (rth R).
  Lemma gradient_unique (A : arith R) eps affine track training q gamma beta (G dY dX dX' : tensor R) dg dg' db db' :
    bn_gradients A eps affine track training q gamma beta G dY dX dg db ->
    bn_gradients A eps affine track training q gamma beta G dY dX' dg' db' ->
    teq dX dX' /\ forall k, 0 <= k < nth 1 (tshape G) 0 -> dg k = dg' k /\ db k = db' k.
  Proof.
    intros [S1 H1] [S2 H2].
    set (I := zrange (nth 1 (tshape G) 0)) in *.
    assert (E : forall G' g' b', radd (inner dX G') (sumf I (fun k => radd (rmul (dg k) (g' k)) (rmul (db k) (b' k)))) =
                                 radd (inner dX' G') (sumf I (fun k => radd (rmul (dg' k) (g' k)) (rmul (db' k) (b' k))))).
    { intros G' g' b'. now rewrite <- H1, <- H2. }
    set (z := fun _ : Z => @rzero R). set (Z0 := mkt (tshape G) (fun _ => @rzero R)).
    assert (IZ : forall X : tensor R, inner X Z0 = rzero).
    { intros X. unfold inner. apply sumf_zero. intros i _. cbn [tat Z0]. ring. }
    assert (SZ : forall a b : Z -> R, sumf I (fun k => radd (rmul (a k) (z k)) (rmul (b k) (z k))) = rzero).
    { intros a b. apply sumf_zero. intros k _. unfold z. ring. }
    assert (SU : forall (a : Z -> R) k0, In k0 I -> sumf I (fun k => rmul (a k) (if k =? k0 then rone else rzero)) = a k0).
    { intros a k0 Hk. rewrite (sumf_single _ _ k0); [rewrite Z.eqb_refl; ring|apply zrange_nodup|exact Hk|].
      intros k _ Hne. destruct (Z.eqb_spec k k0); [congruence|ring]. }
    split.
    - split; [congruence|]. intros i Hi. set (U := mkt (tshape G) (fun j => if zlist_eqb j i then @rone R else rzero)).
      assert (IU : forall X : tensor R, tshape X = tshape dX -> inner X U = tat X i).
      { intros X EX. unfold inner. rewrite (sumf_single _ _ i); [cbn [tat U]; rewrite zlist_eqb_refl; ring|apply indices_nodup|apply in_indices; now rewrite EX|].
        intros j _ Hj. cbn [tat U]. destruct (zlist_eqb j i) eqn:Ej; [apply zlist_eqb_eq in Ej; congruence|ring]. }
      pose proof (E U z z) as Ei. rewrite !SZ, !IU in Ei by congruence.
      transitivity (radd (tat dX i) rzero); [ring|]. rewrite Ei. ring.
    - intros k Hk. assert (Hin : In k I) by now apply in_zrange. set (u := fun j => if j =? k then @rone R else rzero). split.
      + pose proof (E Z0 u z) as Ek. rewrite !IZ in Ek.
        assert (Q : forall a b : Z -> R, sumf I (fun j => radd (rmul (a j) (u j)) (rmul (b j) (z j))) = a k).
        { intros a b. rewrite <- (SU a k Hin). apply sumf_ext. intros j _. unfold z, u. ring. }
        rewrite !Q in Ek. transitivity (radd rzero (dg k)); [ring|]. rewrite Ek. ring.
      + pose proof (E Z0 z u) as Ek. rewrite !IZ in Ek.
        assert (Q : forall a b : Z -> R, sumf I (fun j => radd (rmul (a j) (z j)) (rmul (b j) (u j))) = b k).
        { intros a b. rewrite <- (SU b k Hin). apply sumf_ext. intros j _. unfold z, u. ring. }
        rewrite !Q in Ek. transitivity (radd rzero (db k)); [ring|]. rewrite Ek. ring.
  Qed.
End Unique.

Lemma C56_unique_proof : C56_unique_statement.
Proof. intros R A eps affine track training q gamma beta G dY dX dX' dg dg' db db'. apply gradient_unique. Qed.

Theorem C56_gradient_unique : C56_unique_statement.
Proof. exact C56_unique_proof. Qed.

Lemma C56_present_proof : C56_present_statement.
Proof.
  intros R A eps affine track training q gamma beta gamma' beta' G G'. split.
  - unfold present, moving_output, normalised. cbn [tshape]. destruct (uses (dual_arith A) _ _ _ _), (uses A _ _ _ _). reflexivity.
  - intros i _. cbn [present tat]. now rewrite dual_entry.
Qed.

Theorem C56_moving_output : C56_present_statement.
Proof. exact C56_present_proof. Qed.

(** The partition, the first call and the statistics before it of the example of C34,
    with the outputs' gradients [i (2 k + 1) + 1]. *)
Definition ex56_step : step Qring := mkstep true (exG 3 2) exgamma exgamma [[2; 1]; [2; 1]].
Definition ex56_dY : tensor Qring := @mkt Qring [3; 3] (fun i => Q2Qc (inject_Z (nth 0 i 0 + 2 * nth 1 i 0 * nth 0 i 0 + 1))).
Definition ex56_dy : Z -> tensor Qring := give exP [[2; 1]; [2; 1]] ex56_dY.

Lemma Qlinear : @linear_division Qring Qarith.
Proof. intros a b. cbn [adiv Qarith rmul rone Qring]. unfold Qcdiv. now rewrite Qcmult_1_l. Qed.

Example C56_example :
  exists dX dgamma dbeta,
    bn_gradients Qarith (Q2Qc (1 # 8)) true true true fresh exgamma exgamma (exG 3 2) ex56_dY dX dgamma dbeta /\
    (forall idx v, worker_at exP idx v -> exists t,
       bn_input_gradient Qarith exP 3 (Q2Qc (1 # 8)) None true true (fun _ => 0) (fun _ => false) (bn_start exP 3) (excall ex56_step) ex56_dy v = Ok t /\
       teq t (block [[2; 1]; [2; 1]] idx dX)) /\
    (true = true -> forall k v, worker_at exP (0 :: k :: repeat 0 0) v ->
       (exists t, bn_gamma_gradient Qarith exP 3 (Q2Qc (1 # 8)) None true (fun _ => 0) (fun _ => false) (bn_start exP 3) (excall ex56_step) ex56_dy v = Ok t /\
          teq t (channels 0 (balanced1 3 2) k dgamma)) /\
       (exists t, bn_beta_gradient exP (fun _ => 0) (fun _ => false) (excall ex56_step) ex56_dy v = Ok t /\ teq t (channels 0 (balanced1 3 2) k dbeta))).
Proof.
  apply (C56_batchnorm_gradients Qring Qarith exP 3 (Q2Qc (1 # 8)) None true true (fun _ => 0) (fun _ => false) fresh (bn_start exP 3) (excall ex56_step) ex56_step ex56_dY ex56_dy).
  - exact exP_ok.
  - cbn. lia.
  - lia.
  - exact Qlinear.
  - pose proof C34_example_steps as H. inversion H as [|? ? ? ? H1 _]. exact H1.
  - apply start_tracks; [exact exP_ok|cbn; lia|lia].
  - apply give_blocks; [exact exP_ok|reflexivity].
Qed.

(** Worker 1 holds channel 2 only, of values 6, 5, 4 and gradients 1, 6, 11, of which
    it has the first two; its input gradient, and those of gamma and beta. *)
Example C56_example_values :
  let show r := match r with Ok t => show t | Raise _ => ([], []) end in
  show (bn_input_gradient Qarith exP 3 (Q2Qc (1 # 8)) None true true (fun _ => 0) (fun _ => false) (bn_start exP 3) (excall ex56_step) ex56_dy 1) =
    ([2; 1], [8280 # 6859; 0 # 1]%Q) /\
  show (bn_gamma_gradient Qarith exP 3 (Q2Qc (1 # 8)) None true (fun _ => 0) (fun _ => false) (bn_start exP 3) (excall ex56_step) ex56_dy 1) = ([1; 1], [-240 # 19]%Q) /\
  show (bn_beta_gradient exP (fun _ => 0) (fun _ => false) (excall ex56_step) ex56_dy 1) = ([1; 1], [18 # 1]%Q).
Proof. vm_compute. repeat split; reflexivity. Qed.

Print Assumptions C56_batchnorm_gradients.
