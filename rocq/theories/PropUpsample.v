(** Upsampling: the inputs a worker obtains cover what its interpolation reads
    (C36). *)

From Coq Require Import QArith Qcanon.
From Verif Require Import Prelude SpecIndex SpecLayout SpecPartition SpecHalo ModelSlicing ModelDecomposition
  ModelPartition ProofSlicing ProofDecomposition ProofPartition PropDecomposition Ring Tensor ModelCollectives PropExchange
  ModelUtilities ModelRepartition ModelHaloMixin ProofHaloMixin ModelHaloExchange ModelFeatureLayer
  ModelInterpolate ProofInterpolate PropInterpolate PropBatchNorm ModelScalars ModelUpsample SpecInterpolate ProofUpsample ProofUpsampleLayer.
Local Open Scope Z_scope.

(** * C36 *)

(** The elements of its local tensor, and their weights, that a kernel combines
    in one dimension for output [o]. *)
Definition dim_reads {A} (mode : imode A) (k : kdim) (o : Z) : list (Z * scalar A) :=
  match mode with
  | Nearest => [(compute_nearest_left_idx_weight A k o, s_int A 1)]
  | Linear s c => let '(i0, w0, i1, w1) := compute_linear_idx_weight A s c k o in [(i0, w0); (i1, w1)]
  end.

(** The kernel on whole tensors. *)
Definition sequential (nx ny : Z) : kdim := mkkdim nx 0 nx ny 0 ny.

(** One dimension of the layer on one worker: the kernel's view of it, the block
    of the output, the extent and the global index of the first element of the
    tensor after the halo exchange, and the slice of it that the kernel gets. *)
Record obtained := mkobtained {
  ob_kernel : kdim;
  ob_y_lo : Z;
  ob_y_n : Z;
  ob_extent : Z;
  ob_base : Z;
  ob_slice : Z * Z
}.

Definition obtains (P : part) (X Y idx : list Z) (u : usetup) (j : nat) : obtained :=
  let x_lo := nth j (block_lo (balanced X (p_shape P)) idx) 0 in
  let x_n := nth j (block_shape (balanced X (p_shape P)) idx) 0 in
  let halo := nth j (e_halo (v_info u)) (0, 0) in
  let extent := fst halo + x_n + snd halo in
  let slice := nth j (e_needed (v_info u)) (0, 0) in
  let local := py_range extent slice in
  mkobtained (mkkdim (snd local - fst local) (nth j (v_x_start u) 0) (nth j (v_x_global u) 0)
                     (nth j (v_y_stop u) 0 - nth j (v_y_start u) 0) (nth j (v_y_start u) 0) (nth j (v_y_global u) 0))
             (nth j (block_lo (balanced Y (p_shape P)) idx) 0) (nth j (block_shape (balanced Y (p_shape P)) idx) 0)
             extent (x_lo - fst halo) slice.

(** [Q] holds for every feature dimension and every worker that has outputs, for
    all partitions, extents and arguments that satisfy [ok]. *)
Definition on_workers (T : float_types) (ok : upsample_args T -> Z -> Z -> Prop)
    (Q : upsample_args T -> Z -> Z -> obtained -> Prop) : Prop :=
  forall (P : part) (X Y : list Z) (a : upsample_args T) (shape : Z -> list Z) (idx : list Z) (v : Z),
    part_ok P -> nonneg_shape X -> length X = length (p_shape P) ->
    (forall idx v, worker_at P idx v -> shape v = block_shape (balanced X (p_shape P)) idx) ->
    upsample_output_shape a X = Ok Y -> nonneg_shape Y ->
    (forall j, (2 <= j < length X)%nat -> ok a (nth j X 0) (nth j Y 0)) ->
    worker_at P idx v ->
    exists u, upsample_setup T P a shape v = Ok (Some u) /\
      forall j, (2 <= j < length X)%nat -> 0 < nth j (block_shape (balanced Y (p_shape P)) idx) 0 ->
        Q a (nth j X 0) (nth j Y 0) (obtains P X Y idx u j).

(** The slice lies inside the exchanged tensor, and the kernel is told where it
    lies in the global one. *)
Definition placed {T} (a : upsample_args T) (nx ny : Z) (b : obtained) : Prop :=
  let k := ob_kernel b in
  0 <= fst (ob_slice b) < snd (ob_slice b) /\ snd (ob_slice b) <= ob_extent b /\
  0 <= ob_base b /\ ob_base b + ob_extent b <= nx /\
  n_in k = snd (ob_slice b) - fst (ob_slice b) /\ off_in k = ob_base b + fst (ob_slice b) /\ g_in k = nx /\
  n_out k = ob_y_n b /\ off_out k = ob_y_lo b /\ g_out k = ny.

(** Every element that the sequential kernel reads for an output of the block is
    among those the worker obtains. *)
Definition covered {T} (a : upsample_args T) (nx ny : Z) (b : obtained) : Prop :=
  forall o, 0 <= o < ob_y_n b ->
    Forall (fun r => ob_base b + fst (ob_slice b) <= fst r < ob_base b + snd (ob_slice b))
           (dim_reads (kernel_mode a) (sequential nx ny) (ob_y_lo b + o)).

(** The local kernel reads the same elements with the same weights: it clamps an
    index only where the sequential kernel does. *)
Definition same_reads {T} (a : upsample_args T) (nx ny : Z) (b : obtained) : Prop :=
  forall o, 0 <= o < ob_y_n b ->
    map (fun r => (ob_base b + fst (ob_slice b) + fst r, snd r)) (dim_reads (kernel_mode a) (ob_kernel b) o) =
    dim_reads (kernel_mode a) (sequential nx ny) (ob_y_lo b + o).

(** The method of the specification that the arguments ask for. *)
Definition asked (a : upsample_args exact_types) : method :=
  match u_align a with
  | None => Constant
  | Some true => Aligned
  | Some false => Centred (u_scale a)
  end.

(** The statements that a worker's kernel executes read and write inside its
    local tensors, for all partitions, extents and arguments that satisfy [ok]. *)
Definition kernel_inside (ok : part -> upsample_args exact_types -> Prop) : Prop :=
  forall (R : CRing) (weight : Qc -> R) (P : part) (X Y : list Z) (a : upsample_args exact_types)
    (shape : Z -> list Z) (idx : list Z) (v : Z) (t : tensor R) (u : usetup),
    part_ok P -> pos_shape X -> length X = length (p_shape P) -> (3 <= length X <= 5)%nat ->
    (forall idx v, worker_at P idx v -> shape v = block_shape (balanced X (p_shape P)) idx) ->
    upsample_output_shape a X = Ok Y -> nth 0 Y 0 = nth 0 X 0 -> nth 1 Y 0 = nth 1 X 0 ->
    (forall j, (2 <= j < length X)%nat -> sensible (asked a) (nth j X 0) (nth j Y 0)) ->
    (forall j, (j < length X)%nat -> nth j (p_shape P) 0 <= nth j Y 0) ->   (* every worker has outputs *)
    ok P a -> worker_at P idx v ->
    upsample_setup exact_types P a shape v = Ok (Some u) ->
    tshape t = map2 (fun h n => fst h + n + snd h) (e_halo (v_info u)) (block_shape (balanced X (p_shape P)) idx) ->
    exists ts, upsample_threads exact_types weight a u (upsample_needed u t) = Some ts /\
      Forall (stays_inside (zprod (tshape (upsample_needed u t))) (zprod (block_shape (balanced Y (p_shape P)) idx))) (concat ts).

Definition C36_statement : Prop :=
  on_workers exact_types (fun a => sensible (asked a)) (fun a nx ny b => placed a nx ny b /\ covered a nx ny b /\ same_reads a nx ny b) /\
  (* what the sequential kernel reads *)
  (forall (a : upsample_args exact_types) nx ny y, sensible (asked a) nx ny -> 0 <= y < ny ->
     dim_reads (kernel_mode a) (sequential nx ny) y = reads (asked a) nx ny y) /\
  (* the kernel as a whole *)
  kernel_inside (fun P a => u_align a = None \/ nth 0 (p_shape P) 0 = 1 /\ nth 1 (p_shape P) 0 = 1).

Lemma asked_method (a : upsample_args exact_types) : method_of (python_mode a : imode exact) = asked a.
Proof. unfold python_mode, asked. destruct (u_align a) as [[|]|]; reflexivity. Qed.

Lemma dim_reads_exact (mode : imode exact) k o : dim_reads mode k o = kernel_reads mode k o.
Proof. unfold dim_reads, kernel_reads. destruct mode; reflexivity. Qed.

Lemma sequential_reads (a : upsample_args exact_types) nx ny y : sensible (asked a) nx ny -> 0 <= y < ny ->
  dim_reads (kernel_mode a) (sequential nx ny) y = reads (asked a) nx ny y.
Proof.
  intros Hm Hy. rewrite kernel_mode_exact. rewrite <- asked_method in *.
  change (f_kernel exact_types) with exact. rewrite dim_reads_exact.
  pose proof (first_read_bounds _ nx ny Hm y ltac:(lia)) as B.
  rewrite (kernel_reads_exact (python_mode a) nx ny Hm (sequential nx ny) y); unfold sequential; cbn [g_in g_out off_in off_out n_in n_out];
    try rewrite Z.add_0_l; auto; try lia.
  - erewrite map_ext; [apply map_id|]. intros [i w]. cbn [fst snd]. now rewrite Z.sub_0_r.
  - destruct (python_mode a); auto. change (scalar exact) with Qc in *. lia.
Qed.

Lemma inside_proof : kernel_inside (fun P a => u_align a = None \/ nth 0 (p_shape P) 0 = 1 /\ nth 1 (p_shape P) 0 = 1).
Proof.
  intros R weight P X Y a shape idx v t u HP HX HL HD HS EY Y0 Y1 Hs Hb Hw Hv Eu Et.
  assert (HU : usable P a X Y) by (split; auto; intros; rewrite asked_method; auto).
  pose proof (proj1 Hv) as Hi.
  destruct (setup_spec P a X Y HP (us_nonneg _ _ _ _ HU) HL EY (us_Ynonneg _ _ _ _ HU) shape HS idx v Hv)
    as (u' & Eu' & E1 & E2 & E3 & E4 & E5 & _).
  rewrite Eu in Eu'. injection Eu' as <-.
  rewrite E1 in Et. change (tshape t = exchanged_shape P a X Y idx) in Et.
  destruct (us_slice P a X Y HU idx Hi) as [S1 S2].
  assert (En : tshape (upsample_needed u t) = needed_shape P a X Y idx).
  { unfold upsample_needed, read_slice. cbn [tshape]. rewrite Et, E1, S1. exact S2. }
  destruct (us_local P a X Y HU idx Hi) as (nb & nc & xs & ys & L1 & L2 & L3 & L4 & L5 & L6).
  unfold upsample_threads. rewrite En, E4, E5, (us_local_y P a X Y HU idx Hi), L1, L2.
  destruct (C47_proof R exact weight (kernel_mode a) false nb nc xs ys (v_x_start u) (v_x_global u) (sub_start (p_shape P) Y idx) (v_y_global u)
              L3 L4 L5 L6) as (ts & T1 & T2 & _).
  exists ts. split; auto.
Qed.

Lemma C36_proof : C36_statement.
Proof.
  split; [|split; [exact sequential_reads|exact inside_proof]].
  intros P X Y a shape idx v HP HX HLX HS EY HY Hok Hv.
  destruct (setup_spec P a X Y HP HX HLX EY HY shape HS idx v Hv) as (u & Eu & E1 & E2 & E3 & E4 & E5 & _ & _ & E6).
  exists u. split; auto. intros j Hj Hne.
  pose proof (out_length a X Y EY) as EL. pose proof (proj1 Hv) as Hi. pose proof (s_pos P HP) as Hp.
  assert (Hjp : (j < length (p_shape P))%nat) by lia.
  assert (HLY : length Y = length (p_shape P)) by lia.
  pose proof (index_nth _ _ j Hi Hjp) as Hidx.
  specialize (Hok j Hj). rewrite <- asked_method in Hok.
  assert (Hf : is_feature j = true) by (unfold is_feature; apply Nat.leb_le; lia).
  rewrite bshape_nth in Hne by auto.
  assert (Hlt : start1 (nth j (p_shape P) 0) (nth j idx 0) (nth j Y 0) < start1 (nth j (p_shape P) 0) (nth j idx 0 + 1) (nth j Y 0))
    by (rewrite step by auto; lia).
  pose proof (first_last P a X Y j Hf Hok ltac:(lia) (nth j idx 0) Hidx Hlt) as FL.
  destruct FL as [F1 F2].
  destruct (slice_placed P a X Y HP HX HLX EY HY idx j Hi ltac:(lia) F1 F2) as (K1 & K2 & K3 & K4 & K5 & K6 & K7).
  destruct (E6 j ltac:(lia)) as [Ea Eb].
  pose proof (step (p_shape P) Y idx j HLY Hi Hjp) as SY.
  assert (PL : placed a (nth j X 0) (nth j Y 0) (obtains P X Y idx u j) /\
    ob_base (obtains P X Y idx u j) + fst (ob_slice (obtains P X Y idx u j)) = dim_first P a X Y j (nth j idx 0) /\
    ob_base (obtains P X Y idx u j) + snd (ob_slice (obtains P X Y idx u j)) = dim_last P a X Y j (nth j idx 0) /\
    ob_y_lo (obtains P X Y idx u j) = start1 (nth j (p_shape P) 0) (nth j idx 0) (nth j Y 0) /\
    ob_y_n (obtains P X Y idx u j) = subshape1 (nth j (p_shape P) 0) (nth j idx 0) (nth j Y 0)).
  { unfold placed, obtains. rewrite E1, E2, E3, E4, E5, Ea.
    rewrite sub_start_nth, sub_stop_nth by auto. rewrite !lo_nth, !bshape_nth by auto.
    cbn [ob_slice ob_extent ob_base ob_kernel n_in off_in g_in n_out off_out g_out ob_y_n ob_y_lo fst snd].
    rewrite K1. repeat split; try reflexivity; lia. }
  set (p := nth j (p_shape P) 0) in *. set (i := nth j idx 0) in *. set (nx := nth j X 0) in *. set (ny := nth j Y 0) in *.
  set (st := dim_first P a X Y j i) in *. set (sp := dim_last P a X Y j i) in *.
  destruct PL as (PL & B1 & B2 & B3 & B4).
  split; [exact PL|]. split.
  - intros o Ho. rewrite B1, B2, B3, B4 in *.
    rewrite sequential_reads.
    + apply Forall_forall. intros r Hr. rewrite <- asked_method in Hr.
      apply (covers P a X Y j Hf Hok ltac:(lia) i Hidx Hlt (start1 p i ny + o) r); auto. fold p ny. lia.
    + now rewrite <- asked_method.
    + pose proof (y_range P a X Y j Hok ltac:(lia) i Hidx) as [R1 R2]. fold p ny in R1, R2. lia.
  - intros o Ho. rewrite B1, B3, B4 in *. destruct PL as (_ & _ & _ & _ & Q1 & Q2 & Q3 & Q4 & Q5 & Q6).
    rewrite sequential_reads.
    + rewrite kernel_mode_exact. change (f_kernel exact_types) with exact. rewrite dim_reads_exact.
      rewrite (local_kernel P a X Y j Hf Hok ltac:(lia) i Hidx Hlt (ob_kernel (obtains P X Y idx u j)) o).
      * rewrite map_map. cbn [fst snd]. fold p ny st. rewrite asked_method.
        erewrite map_ext; [apply map_id|]. intros [z w]. cbn [fst snd]. f_equal. lia.
      * fold st. lia.
      * fold st sp. lia.
      * exact Q3.
      * exact Q6.
      * fold p ny. lia.
      * fold p ny. lia.
    + now rewrite <- asked_method.
    + pose proof (y_range P a X Y j Hok ltac:(lia) i Hidx) as [R1 R2]. fold p ny in R1, R2. lia.
Qed.

(** Partial: in exact arithmetic, and with batch and channels in one piece when
    interpolating linearly.  The refutations below show that the claim fails
    without these restrictions. *)
Theorem C36_upsampling_ranges_partial : C36_statement.
Proof. exact C36_proof. Qed.

(** ** In floating point arithmetic the claim is false *)

(** Tensors of floats and of doubles; the mixin computes with doubles. *)
Definition float_tensors : float_types := mkfloat_types python_scalars kernel_float (fun s => s).
Definition double_tensors : float_types := mkfloat_types python_scalars kernel_double (fun s => s).

Definition two : part := mkpart 0 [0; 1] [1; 1; 2].
Definition four : part := mkpart 0 [0; 1; 2; 3] [1; 1; 4].

Lemma two_ok : part_ok two.
Proof. split; [repeat constructor; cbn; lia|]. split; [discriminate|]. split; [repeat constructor|reflexivity]. Qed.
Lemma four_ok : part_ok four.
Proof. split; [repeat constructor; cbn; lia|]. split; [discriminate|]. split; [repeat constructor|reflexivity]. Qed.

(** Nearest, 14 to 46 elements on two workers: output 23 is at 23 * 14 / 46 = 7;
    the float 14 / 46 is too small, so that the sequential kernel reads element
    6.  Worker 1 obtains the elements from 7 on. *)
Theorem C36_float_refuted : ~ on_workers float_tensors (fun _ nx ny => 0 < nx /\ 0 < ny) covered.
Proof.
  intros C.
  destruct (C two [1; 1; 14] [1; 1; 46] (mkupsample_args float_tensors (Some [1; 1; 46]) None None)
              (fun _ => [1; 1; 7]) [0; 0; 1] 1) as (u & Eu & K).
  - exact two_ok.
  - repeat constructor; lia.
  - reflexivity.
  - intros idx v [Hi _]. apply in_indices in Hi. cbn in Hi. destruct Hi as [<-|[<-|[]]]; reflexivity.
  - reflexivity.
  - repeat constructor; lia.
  - intros j Hj. assert (j = 2%nat) as -> by (cbn [length] in Hj; lia). cbn. lia.
  - split; [repeat constructor; lia|reflexivity].
  - vm_compute in Eu. injection Eu as <-.
    specialize (K 2%nat ltac:(cbn; lia) ltac:(vm_compute; reflexivity) 0 ltac:(vm_compute; split; [discriminate|reflexivity])).
    vm_compute in K. apply Forall_inv in K. destruct K as [K _]. now apply K.
Qed.

(** Nearest, 6 to 94 elements on four workers, in double precision: output 47 is
    at 3, and so says the sequential kernel.  Worker 1, which has the elements 1
    and 2, believes to need 1 and 2 only. *)
Theorem C36_double_refuted : ~ on_workers double_tensors (fun _ nx ny => 0 < nx /\ 0 < ny) covered.
Proof.
  intros C.
  destruct (C four [1; 1; 6] [1; 1; 94] (mkupsample_args double_tensors (Some [1; 1; 94]) None None)
              (fun v => [1; 1; if v <? 2 then 2 else 1]) [0; 0; 1] 1) as (u & Eu & K).
  - exact four_ok.
  - repeat constructor; lia.
  - reflexivity.
  - intros idx v [Hi E]. apply in_indices in Hi. cbn in Hi.
    destruct Hi as [<-|[<-|[<-|[<-|[]]]]]; cbn in E; injection E as <-; reflexivity.
  - reflexivity.
  - repeat constructor; lia.
  - intros j Hj. assert (j = 2%nat) as -> by (cbn [length] in Hj; lia). cbn. lia.
  - split; [repeat constructor; lia|reflexivity].
  - vm_compute in Eu. injection Eu as <-.
    specialize (K 2%nat ltac:(cbn; lia) ltac:(vm_compute; reflexivity) 23 ltac:(vm_compute; split; [discriminate|reflexivity])).
    vm_compute in K. apply Forall_inv in K. destruct K as [_ K]. discriminate K.
Qed.

(** ** With channels distributed, linear interpolation writes out of bounds

    Two channels on two workers, 2 to 3 elements: worker 0 obtains both channels,
    the kernel interpolates both, and its output has room for one. *)
Definition by_channel : part := mkpart 0 [0; 1] [1; 2; 1].
Definition aligned_to_3 : upsample_args exact_types := mkupsample_args exact_types (Some [1; 2; 3]) None (Some true).

Lemma by_channel_ok : part_ok by_channel.
Proof. split; [repeat constructor; cbn; lia|]. split; [discriminate|]. split; [repeat constructor|reflexivity]. Qed.

Theorem C36_channels_refuted : ~ kernel_inside (fun _ _ => True).
Proof.
  intros C.
  set (u := match upsample_setup exact_types by_channel aligned_to_3 (fun _ => [1; 1; 2]) 0 with Ok (Some u) => u | _ => mkusetup (mkexchange_info [] [] [] []) [] [] [] [] [] [] end).
  destruct (C Qring (fun w => w) by_channel [1; 2; 2] [1; 2; 3] aligned_to_3 (fun _ => [1; 1; 2]) [0; 0; 0] 0
              (@mkt Qring [1; 2; 2] (fun _ => Qint 0)) u) as (ts & Et & K).
  - exact by_channel_ok.
  - repeat constructor; lia.
  - reflexivity.
  - cbn. lia.
  - intros idx v [Hi _]. apply in_indices in Hi. cbn in Hi. destruct Hi as [<-|[<-|[]]]; reflexivity.
  - reflexivity.
  - reflexivity.
  - reflexivity.
  - intros j Hj. assert (j = 2%nat) as -> by (cbn [length] in Hj; lia). vm_compute. auto.
  - intros j Hj. cbn [length] in Hj. destruct j as [|[|[|]]]; cbn; lia.
  - exact I.
  - split; [repeat constructor; lia|reflexivity].
  - vm_compute. reflexivity.
  - vm_compute. reflexivity.
  - assert (E : nth_error (concat ts) 6 = option_map (fun t => nth 6 t (mkstmt false 0 None 0)) (Some (concat ts)) /\
                option_map (fun ts => st_to (nth 6 (concat ts) (mkstmt false 0 None 0))) (Some ts) = Some 3 /\ (6 < length (concat ts))%nat).
    { rewrite <- Et. assert (El : option_map (fun ts => length (concat ts)) (Some ts) = Some 12%nat) by (rewrite <- Et; vm_compute; reflexivity).
      cbn [option_map] in El. injection El as El. split; [|split].
      - cbn [option_map]. apply nth_error_nth'. lia.
      - vm_compute. reflexivity.
      - lia. }
    destruct E as (_ & E & El). cbn [option_map] in E. injection E as E.
    rewrite Forall_forall in K. destruct (K (nth 6 (concat ts) (mkstmt false 0 None 0))) as [_ K'].
    + apply nth_In. lia.
    + destruct K' as [_ K']. assert (B : 3 < 3); [|lia]. rewrite <- E at 1. exact K'.
Qed.

(** ** Examples *)

(** The first worker of two, 5 to 9 elements, centred: outputs 0 to 4 are read
    from the elements 0 to 3; the worker has 0 to 2 and obtains 3.  The second
    needs no more than it gets: 2 to 4. *)
Definition centred_to_9 : upsample_args exact_types := mkupsample_args exact_types (Some [1; 1; 9]) None (Some false).

Example C36_example :
  let P := two in
  let X := [1; 1; 5] in
  let Y := [1; 1; 9] in
  let shape v := block_shape (balanced X [1; 1; 2]) [0; 0; v] in
  part_ok P /\ upsample_output_shape centred_to_9 X = Ok Y /\ sensible (asked centred_to_9) 5 9 /\
  (forall idx v, worker_at P idx v -> shape v = block_shape (balanced X (p_shape P)) idx) /\
  (exists u, upsample_setup exact_types P centred_to_9 shape 0 = Ok (Some u) /\
    ob_slice (obtains P X Y [0; 0; 0] u 2) = (0, 4) /\ ob_extent (obtains P X Y [0; 0; 0] u 2) = 4 /\
    ob_base (obtains P X Y [0; 0; 0] u 2) = 0) /\
  (exists u, upsample_setup exact_types P centred_to_9 shape 1 = Ok (Some u) /\
    ob_slice (obtains P X Y [0; 0; 1] u 2) = (0, 3) /\ ob_extent (obtains P X Y [0; 0; 1] u 2) = 3 /\
    ob_base (obtains P X Y [0; 0; 1] u 2) = 2 /\
    map fst (dim_reads (kernel_mode centred_to_9) (ob_kernel (obtains P X Y [0; 0; 1] u 2)) 0) = [0; 1]) /\
  map fst (reads (asked centred_to_9) 5 9 4) = [2; 3] /\ map fst (reads (asked centred_to_9) 5 9 0) = [0; 1] /\
  map fst (reads (asked centred_to_9) 5 9 8) = [4; 4].
Proof.
  cbv zeta. split; [exact two_ok|]. split; [reflexivity|]. split; [vm_compute; auto|]. split.
  { intros idx v [Hi E]. apply in_indices in Hi. cbn in Hi.
    destruct Hi as [<-|[<-|[]]]; cbn in E; injection E as <-; reflexivity. }
  split; [eexists; split; [vm_compute; reflexivity|]; vm_compute; auto|].
  split; [eexists; split; [vm_compute; reflexivity|]; vm_compute; auto|].
  vm_compute. auto.
Qed.

Print Assumptions C36_upsampling_ranges_partial.
Print Assumptions C36_float_refuted.
Print Assumptions C36_double_refuted.
Print Assumptions C36_channels_refuted.
