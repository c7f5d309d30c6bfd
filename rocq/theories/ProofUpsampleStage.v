(** Upsampling as a layer of a network. *)

From Coq Require Import QArith Qcanon.
From Verif Require Import Prelude ModelSlicing ModelDecomposition ModelPartition SpecIndex SpecLayout SpecPartition ProofSlicing ProofDecomposition
  ProofPartition Ring Tensor Blocks ModelCollectives P2P Rounds ModelRepartition PropRepartition ModelHaloMixin ProofHaloMixin ModelHaloExchange
  PropHaloMixin PropHaloExchange ModelFeatureLayer PropFeatureLayer ModelInterpolate PropInterpolate ModelScalars ModelUpsample SpecInterpolate ProofUpsampleLayer
  PropUpsample ProofUpsampleOutput PropUpsampleLayer ModelUpsampleGrad PropUpsampleGrad SpecUpsampleGrad PropUpsampleBlocks
  ModelTraining SpecTraining ProofTraining ProofStages ProofWindows.
Local Open Scope Z_scope.

(** The conditions of C48 and C69: extents [X] to extents [Y] on the workers of [P]. *)
Definition upsamples {R : CRing} (weight : Qc -> R) (world : list Z) (P : part) (a : upsample_args exact_types) (X Y : list Z) : Prop :=
  weight 1%Qc = rone /\ NoDup world /\ (forall v, In v (p_ranks P) -> In v world) /\ part_ok P /\
  length X = length (p_shape P) /\ (3 <= length X <= 5)%nat /\ pos_shape X /\
  upsample_output_shape a X = Ok Y /\ nth 0 Y 0 = nth 0 X 0 /\ nth 1 Y 0 = nth 1 X 0 /\
  (forall j, (2 <= j < length X)%nat -> sensible (asked a) (nth j X 0) (nth j Y 0)) /\
  (forall j, (j < length X)%nat -> nth j (p_shape P) 0 <= nth j Y 0) /\
  (u_align a = None \/ nth 0 (p_shape P) 0 = 1 /\ nth 1 (p_shape P) 0 = 1) /\
  neighbours_only P (asked a) X Y.

Lemma upsample_sound {R : CRing} (weight : Qc -> R) world P a X Y : upsamples weight world P a X Y ->
  sound world (mkplace P (balanced X (p_shape P))) (YUpsample P weight a) (seq_upsample (asked a) weight Y) []
    (mkplace P (balanced Y (p_shape P))).
Proof.
  intros (Hw1 & HN & HI & HP & HL & HD & HX & EY & E0 & E1 & Hs & Hb & Hw & Hnb) Th th G x _ [HG HO] ps.
  cbn [pl_part pl_layout] in *.
  assert (HU : usable P a X Y) by (split; auto; intros; rewrite asked_method; auto).
  pose proof (us_Ylen _ _ _ _ HU) as LY.
  assert (EX : tshape G = X) by (rewrite (proj1 HG); apply balanced_shape; [apply HP|apply (us_nonneg _ _ _ _ HU)|congruence]).
  assert (NY : nonneg_shape Y).
  { apply Forall_forall. intros z Hz. apply (In_nth Y z 0) in Hz as (j & Hj & <-). rewrite LY in Hj. specialize (Hb j Hj).
    pose proof (pos_nth _ j (proj1 (proj2 (proj2 HP))) ltac:(lia)). lia. }
  assert (ESY : layout_shape (balanced Y (p_shape P)) = Y) by (apply balanced_shape; [apply HP|exact NY|congruence]).
  assert (Up : upsampled (asked a) weight G (upsample_to (asked a) weight Y G)).
  { destruct X as [|b [|c xs]]; cbn [length] in HD; try lia. destruct Y as [|b' [|c' ys]]; cbn [length] in LY; try lia.
    cbn [nth] in E0, E1. subst b' c'. apply to_upsampled with (xs := xs); auto; lia. }
  assert (EUs : tshape (upsample_to (asked a) weight Y G) = Y) by reflexivity.
  assert (HGb : holds_blocks P (balanced (tshape G) (p_shape P)) G x) by (rewrite EX; exact HG).
  set (U := upsample_to (asked a) weight Y G) in *.
  pose proof (C48_proof R weight world P a G U x Hw1 HN HI HP) as F. rewrite EX, EUs in F.
  destruct (F HL HD HX EY Hs Hb Hw Up HG Hnb) as (F0 & Safe & F1). clear F.
  set (shape := fun v => tshape (x v)) in *. set (arg := upsample_argument exact_types P a shape x) in *.
  assert (Fd : forall saved, (exists pre init eager g, same_shapes P arg pre /\
            ends world (upsample_halo P a x (pre ++ [HForward arg])) init eager g /\ saved = halo_result g) ->
          (exists y, returns world (upsample_output exact_types weight P a shape x saved) y) /\
          forall y, returns world (upsample_output exact_types weight P a shape x saved) y -> held world (mkplace P (balanced Y (p_shape P))) U y).
  { intros saved (pre & init & eager & g & Hpre & Hg & ->). destruct (F1 pre init eager g Hpre Hg) as [B1 B2].
    apply deliver; auto. intros v Hv Hn. exists (x v). split; [now apply B2|now apply HO]. }
  split.
  { destruct (safe_ends world P _ _ _ [HForward arg] (fun _ => hst0) (fun _ _ _ _ => false) Safe) as [g Hg].
    assert (Hs' : exists pre init eager g', same_shapes P arg pre /\
            ends world (upsample_halo P a x (pre ++ [HForward arg])) init eager g' /\ halo_result g = halo_result g').
    { exists [], (fun _ => hst0), (fun _ _ _ _ => false), g. split; [constructor|]. split; [exact Hg|reflexivity]. }
    destruct (Fd _ Hs') as [[y Hy] _]. exists (halo_result g), y. split; [exact F0|]. split; [exact Hs'|exact Hy]. }
  intros saved out (_ & Hsv & Hy). split; [now apply (Fd saved Hsv)|].
  intros dY dy [HY HOY]. cbn [pl_part pl_layout] in *.
  assert (EdY : tshape dY = Y) by (rewrite (proj1 HY); exact ESY).
  pose proof (C69_proof R weight world P a X dY x dy Hw1 HN HI HP HL HD HX) as B. rewrite EdY in B.
  destruct (B EY E0 E1 Hs Hb Hw Hnb (fun idx v Hv => proj1 (proj2 HG idx v Hv)) HY) as (B0 & Safe' & B1). clear B.
  fold shape arg in B0, Safe', B1.
  set (cot := upsample_back_argument exact_types weight P a shape (fun v => tshape (arg v)) dy) in *.
  assert (Bd : forall pre init eager g, same_shapes P arg pre -> ends world (upsample_halo P a x (pre ++ [HBackward cot])) init eager g ->
          (exists dx, returns world (upsample_gradient exact_types P a shape dy (halo_result g)) dx) /\
          forall dx, returns world (upsample_gradient exact_types P a shape dy (halo_result g)) dx ->
            held world (mkplace P (balanced X (p_shape P))) (upsample_from (asked a) weight X dY) dx).
  { intros pre init eager g Hpre Hg. destruct (B1 pre init eager g Hpre Hg) as [C1 C2].
    apply deliver; auto; [symmetry; rewrite <- (proj1 HG); exact EX|].
    intros v Hv Hn. exists (dy v). split; [now apply C2|now apply HOY]. }
  split.
  { destruct (safe_ends world P _ _ _ [HBackward cot] (fun _ => hst0) (fun _ _ _ _ => false) Safe') as [g Hg].
    destruct (Bd [] _ _ g (Forall_nil _) Hg) as [[dx Hdx] _]. exists dx, (fun _ => []). split; [exact B0|].
    exists [], (fun _ => hst0), (fun _ _ _ _ => false), g. split; [constructor|]. split; [exact Hg|]. split; [exact Hdx|reflexivity]. }
  intros dx ga (_ & pre & init & eager & g & Hpre & Hg & Hdx & ->). split; [|apply no_grads].
  cbn [q_back seq_upsample]. rewrite EX. now apply (Bd pre init eager g Hpre Hg).
Qed.
