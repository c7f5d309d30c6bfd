(** The channels of the input of a batch normalisation: C90. *)

From Coq Require Import QArith Qcanon.
From Verif Require Import Prelude SpecIndex SpecLayout SpecPartition ModelSlicing ProofSlicing ProofDecomposition ModelPartition ProofPartition
  Ring Tensor ModelCollectives Blocks ProofRepartition PropRepartition ModelBatchNorm SpecBatchNorm ProofBatchNorm PropBatchNorm
  PropCheckpoint.

Open Scope Z_scope.

(** ** C90 *)

(** A layout over the workers of [P], its channels cut in any way. *)
Definition any_cut (P : part) (L : layout) : Prop := layout_ok L /\ layout_workers L = p_shape P.

(** An input with another number of channels: all workers raise, and go on as if the
    call had not been made. *)
Definition C90_number_statement : Prop :=
  forall (R : CRing) (A : arith R) P num_features eps momentum affine track dt rg st (c : bncall R) (calls : list (bncall R)) L G,
  part_ok P -> (2 <= length (p_shape P))%nat -> any_cut P L -> holds_blocks P L G (k_input c) ->
  nth 1 (tshape G) 0 <> num_features ->
  let run := bn_run A P num_features eps momentum affine track dt rg in
  forall idx v, worker_at P idx v ->
    let '(ys, st') := run st (c :: calls) in
    let '(Ys, old') := run st calls in
    map (fun y => y v) ys = Raise ErrValue :: map (fun y => y v) Ys /\ st' v = old' v.

(** An input with the right number of channels, cut in any way: each worker that
    returns has its block of the sequential output. *)
Definition C90_cut_statement (allowed : bool -> bool -> Prop) : Prop :=
  forall (R : CRing) (A : arith R) P num_features eps momentum affine track dt rg (c : bncall R) gamma beta L G,
  part_ok P -> (2 <= length (p_shape P))%nat -> 0 <= num_features -> any_cut P L -> holds_blocks P L G (k_input c) ->
  nth 1 (tshape G) 0 = num_features -> allowed affine track ->
  (affine = true -> parameter P num_features gamma (k_gamma c) /\ parameter P num_features beta (k_beta c)) ->
  forall idx v y st', worker_at P idx v ->
    bn_forward A P num_features eps momentum affine track dt rg (bn_start P num_features) c v = Ok (y, st') ->
    teq y (block L idx (normalised A eps affine track (k_training c) gamma beta fresh G)).

(** Neither affine parameters nor statistics; then all workers return. *)
Definition plain_layer (affine track : bool) : Prop := affine = false /\ track = false.
Definition C90_returns_statement : Prop :=
  forall (R : CRing) (A : arith R) P num_features eps momentum dt rg st (c : bncall R) L G,
  part_ok P -> (2 <= length (p_shape P))%nat -> any_cut P L -> holds_blocks P L G (k_input c) ->
  nth 1 (tshape G) 0 = num_features ->
  forall idx v, worker_at P idx v -> exists y,
    bn_forward A P num_features eps momentum false false dt rg st c v = Ok (y, st v) /\
    teq y (block L idx (normalised A eps false false (k_training c) (fun _ => rzero) (fun _ => rzero) fresh G)).

(** *** Proofs *)

Section Same.
  Context {R : CRing}.
  Variables (A : arith R) (P : part) (num_features : Z) (eps : R) (momentum : option R) (affine track : bool).
  Variables (dt : Z -> Z) (rg : Z -> bool).
  Notation run := (bn_run A P num_features eps momentum affine track dt rg).
  Notation forward := (bn_forward A P num_features eps momentum affine track dt rg).

  Lemma forward_same st1 st2 c v : st1 v = st2 v -> forward st1 c v = forward st2 c v.
  Proof. intros H. unfold bn_forward, bn_statistics. now rewrite H. Qed.

  Lemma run_same v calls : forall st1 st2, st1 v = st2 v ->
    map (fun y => y v) (fst (run st1 calls)) = map (fun y => y v) (fst (run st2 calls)) /\
    snd (run st1 calls) v = snd (run st2 calls) v.
  Proof.
    induction calls as [|c cs IH]; intros st1 st2 H; [split; [reflexivity|exact H]|].
    pose proof (forward_same st1 st2 c v H) as F. cbn [bn_run].
    set (s1 := fun u => match forward st1 c u with Ok (_, s) => s | Raise _ => st1 u end).
    set (s2 := fun u => match forward st2 c u with Ok (_, s) => s | Raise _ => st2 u end).
    assert (H' : s1 v = s2 v) by (unfold s1, s2; now rewrite F, H).
    specialize (IH s1 s2 H'). destruct (run s1 cs) as [y1 r1], (run s2 cs) as [y2 r2]. cbn [fst snd map] in *.
    destruct IH as [IH1 IH2]. split; [|exact IH2]. now rewrite F, IH1.
  Qed.
End Same.

Lemma C90_number_proof : C90_number_statement.
Proof.
  intros R A P n eps momentum affine track dt rg st c calls L G HP LP2 [HL HW] HB Hn run idx v Hv.
  assert (LPd : length (p_shape P) = S (S (length (p_shape P) - 2))) by lia.
  assert (F : bn_forward A P n eps momentum affine track dt rg st c v = Raise ErrValue).
  { unfold bn_forward, bn_statistics. rewrite (st_part P _ HP LPd). cbn [rbind].
    rewrite (volume_ok P L HP HL HW G _ HB idx v Hv). cbn [rbind]. rewrite <- (proj1 HB), (proj2 (Z.eqb_neq _ _) Hn). reflexivity. }
  unfold run. cbn [bn_run].
  set (s1 := fun u => match bn_forward A P n eps momentum affine track dt rg st c u with Ok (_, s) => s | Raise _ => st u end).
  assert (H1 : s1 v = st v) by (unfold s1; now rewrite F).
  pose proof (run_same A P n eps momentum affine track dt rg v calls s1 st H1) as [E1 E2].
  destruct (bn_run _ _ _ _ _ _ _ _ _ s1 calls) as [ys st'], (bn_run _ _ _ _ _ _ _ _ _ st calls) as [Ys old'].
  cbn [fst snd map] in *. now rewrite F, E1.
Qed.

Lemma C90_returns_proof : C90_returns_statement.
Proof.
  intros R A P n eps momentum dt rg st c L G HP LP2 [HL HW] HB Hn idx v Hv.
  set (d := (length (p_shape P) - 2)%nat). assert (LPd : length (p_shape P) = S (S d)) by (unfold d; lia).
  unfold bn_forward, bn_statistics. rewrite (st_part P d HP LPd). cbn [rbind].
  rewrite (volume_ok P L HP HL HW G _ HB idx v Hv). cbn [rbind]. rewrite <- (proj1 HB), Hn, Z.eqb_refl. cbn [negb].
  rewrite !Bool.andb_false_r.
  pose proof (mean_channels A P d L dt rg HP LPd HL HW G _ HB idx v Hv) as (m & Em & Hm).
  pose proof (var_channels A P d L dt rg HP LPd HL HW G _ HB idx v Hv) as (w & Ew & Hw).
  cbv zeta.
  change (fun u => match global_shape P (k_input c) u with Ok s0 => feature_volume s0 | Raise _ => 0 end) with (vol P (k_input c)).
  rewrite Em. cbn [rbind]. rewrite Ew. cbn [rbind].
  destruct (block_channels P d L dt rg LPd HW G rsub _ idx v _ m Hv (proj2 HB idx v Hv) Hm) as (r1 & E1 & H1). rewrite E1. cbn [rbind].
  destruct (block_channels P d L dt rg LPd HW _ (fun a b => adiv A a (asqrt A (radd b eps))) _ idx v _ w Hv H1 Hw) as (r2 & E2 & H2).
  rewrite E2. cbn [rbind]. exists r2. split; [reflexivity|]. unfold normalised, uses. rewrite Bool.andb_false_r. exact H2.
Qed.

Lemma C90_cut_proof : C90_cut_statement plain_layer.
Proof.
  intros R A P n eps momentum affine track dt rg c gamma beta L G HP LP2 Hn0 HL HB Hn [-> ->] _ idx v y st' Hv E.
  destruct (C90_returns_proof R A P n eps momentum dt rg (bn_start P n) c L G HP LP2 HL HB Hn idx v Hv) as (y' & E' & H').
  rewrite E in E'. injection E' as -> _. exact H'.
Qed.

Theorem C90_number : C90_number_statement.
Proof. exact C90_number_proof. Qed.

Theorem C90_returns : C90_returns_statement.
Proof. exact C90_returns_proof. Qed.

(** Missing: layers with affine parameters or statistics. *)
Theorem C90_cut_partial : C90_cut_statement plain_layer.
Proof. exact C90_cut_proof. Qed.

(** Three channels cut into 1 and 2 instead of 2 and 1.  Worker 1 has channels 1 and 2
    but the factor of channel 2 only, which it uses for both. *)
Definition ctL : layout := [[2; 1]; [1; 2]].
Definition ctcall : bncall Qring :=
  mkcall true (give exP ctL (exG 3 2)) (give_channels exP 3 exgamma) (give_channels exP 3 exgamma).
Lemma ct_blocks : any_cut exP ctL /\ holds_blocks exP ctL (exG 3 2) (k_input ctcall).
Proof.
  split; [split; [repeat constructor; lia|reflexivity]|]. apply give_blocks; [exact exP_ok|reflexivity].
Qed.

Theorem C90_cut_refuted : ~ C90_cut_statement (fun _ _ => True).
Proof.
  intros H. specialize (H Qring Qarith exP 3 (Q2Qc (1 # 8)) None true false (fun _ => 0) (fun _ => false) ctcall exgamma exgamma ctL (exG 3 2)
    exP_ok ltac:(cbn; lia) ltac:(lia) (proj1 ct_blocks) (proj2 ct_blocks) eq_refl I).
  specialize (H ltac:(intros _; split; apply give_parameter; try exact exP_ok; cbn; lia) [0; 1] 1).
  destruct (bn_forward Qarith exP 3 (Q2Qc (1 # 8)) None true false (fun _ => 0) (fun _ => false) (bn_start exP 3) ctcall 1) as [[y st']|e] eqn:E.
  - specialize (H y st' ltac:(apply (index_in_spec exP 1 [0; 1] exP_ok); reflexivity) eq_refl).
    destruct H as [Hs Hv].
    assert (E2 : tshape y = [2; 2]).
    { change (tshape y) with (match Ok (y, st') with Ok (t, _) => tshape t | Raise _ => [] end). rewrite <- E. vm_compute. reflexivity. }
    specialize (Hv [0; 0] ltac:(rewrite E2; repeat constructor; lia)).
    assert (E3 : Some (this (tat y [0; 0])) = match bn_forward Qarith exP 3 (Q2Qc (1 # 8)) None true false (fun _ => 0) (fun _ => false) (bn_start exP 3) ctcall 1 with
                   Ok (t, _) => Some (this (tat t [0; 0])) | Raise _ => None end) by now rewrite E.
    rewrite Hv in E3. vm_compute in E3. discriminate.
  - assert (F : match bn_forward Qarith exP 3 (Q2Qc (1 # 8)) None true false (fun _ => 0) (fun _ => false) (bn_start exP 3) ctcall 1 with
                  Ok _ => true | Raise _ => false end = false) by now rewrite E.
    vm_compute in F. discriminate.
Qed.

(** The same input in a layer without parameters, on worker 1: two channels; and in a
    layer for two channels: refused. *)
Example C90_example :
  any_cut exP ctL /\ holds_blocks exP ctL (exG 3 2) (k_input ctcall) /\ nth 1 (tshape (exG 3 2)) 0 = 3 /\
  match bn_forward Qarith exP 3 (Q2Qc (1 # 8)) None false false (fun _ => 0) (fun _ => false) (bn_start exP 3) ctcall 1 with
  | Ok (y, _) => show y = show (block ctL [0; 1] (normalised Qarith (Q2Qc (1 # 8)) false false true (fun _ => 0%Qc) (fun _ => 0%Qc) fresh (exG 3 2)))
  | Raise _ => False
  end /\
  match bn_forward Qarith exP 2 (Q2Qc (1 # 8)) None false false (fun _ => 0) (fun _ => false) (bn_start exP 2) ctcall 1 with
  | Ok _ => False
  | Raise e => e = ErrValue
  end.
Proof.
  split; [apply ct_blocks|]. split; [apply ct_blocks|]. split; [reflexivity|]. split; vm_compute; reflexivity.
Qed.

Print Assumptions C90_number.
Print Assumptions C90_returns.
Print Assumptions C90_cut_partial.
Print Assumptions C90_cut_refuted.
