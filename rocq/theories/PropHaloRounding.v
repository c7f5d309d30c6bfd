(** Rounding errors and reproducibility of the gradients of halo exchanges: C77. *)

From Coq Require Import Reals Lra Sorting.Permutation.
From Flocq Require Import Core Binary Bits BinarySingleNaN.
From Verif Require Import Prelude SpecIndex SpecLayout SpecPartition SpecHalo SpecSum ModelSlicing ModelDecomposition
  ModelPartition ProofPartition PropPartition Ring Tensor Blocks P2P Rounds ModelRepartition ProofTransfer PropRepartition
  ModelHaloMixin ProofHaloMixin PropHaloMixin ModelHaloExchange ProofHaloLinks ProofHaloZones PropHaloExchange PropFeatureLayer
  ModelReduce PropReduce SpecRounding PropRounding PropConvGradRounding ModelHaloReduce SpecHaloSum ProofHaloReduce Schedule PropHaloReduce.

(** An entry of the block is near to the sum of the cotangents of its copies; two
    executions, whatever came before, differ by at most both errors. *)
Definition C77_near_statement : Prop :=
  forall (F : format) (M : machine (words F)) (world : list Z) (P : part) (L : layout) (H : halos)
    (shape : Z -> list Z) (recv send : Z -> list (Z * Z)) (pre pre' : list (@call (words F))) (dy : Z -> tensor (words F)) init init' eager eager' g g',
    ieee F M -> halo_given world P L H -> halos_narrow L H -> planned P L H shape recv send ->
    Forall (call_ok P L H) (pre ++ [HBackward dy]) -> Forall (call_ok P L H) (pre' ++ [HBackward dy]) ->
    ends world (history_rounds_by P shape recv send (m_add M) (pre ++ [HBackward dy])) init eager g ->
    ends world (history_rounds_by P shape recv send (m_add M) (pre' ++ [HBackward dy])) init' eager' g' ->
    forall idx v p q C, worker_at P idx v -> in_bulk L H idx p q -> copies P L H (vadd (block_lo L idx) p) C ->
    approximates F (cotangents dy C) (tat (halo_result g v) q) /\
    (finite F (tat (halo_result g v) q) -> finite F (tat (halo_result g' v) q) ->
     (Rabs (number F (tat (halo_result g v) q) - number F (tat (halo_result g' v) q)) <= 2 * sum_error F (cotangents dy C))%real).

(** The claim in general: the exchanges of a layer give the same gradients in every
    execution. *)
Definition C77_reproducible_statement : Prop :=
  forall (F : format) (M : machine (words F)) (world : list Z) (P : part) (L : layout) (w : window) shapes ny
    (shape : Z -> list Z) (recv send : Z -> list (Z * Z)) (calls : list (@call (words F))) init eager g g',
    ieee F M -> layer_plan world P L w shapes ny shape recv send ->
    halos_narrow L (layer_halos L (full_window (length L) w)) -> Forall (call_ok P L (layer_halos L (full_window (length L) w))) calls ->
    ends world (history_rounds_by P shape recv send (m_add M) calls) init eager g ->
    ends world (history_rounds_by P shape recv send (m_add M) calls) init eager g' ->
    forall v, In v world -> teq (halo_result g v) (halo_result g' v).

(** They do if no entry is sent to both neighbours in one dimension: all results of
    the history agree, whatever the addition. *)
Definition C77_reproducible_partial_statement : Prop :=
  forall (R : CRing) (M : machine R) (world : list Z) (P : part) (L : layout) (H : halos)
    (shape : Z -> list Z) (recv send : Z -> list (Z * Z)) (calls : list (@call R)) init eager eager' g g',
    halo_given world P L H -> planned P L H shape recv send -> halos_apart L H ->
    ends world (history_rounds_by P shape recv send (m_add M) calls) init eager g ->
    ends world (history_rounds_by P shape recv send (m_add M) calls) init eager' g' ->
    forall v, In v world -> Forall2 teq (h_hist (wdata (gw g v))) (h_hist (wdata (gw g' v))).

(** ** Proofs *)

Lemma C77_near_proof : C77_near_statement.
Proof.
  intros F M world P L H shape recv send pre pre' dy init init' eager eager' g g' HI HG HN HPl Hc Hc' He He' idx v p q C Hw Hp HC.
  destruct (C76_halo_gradients (words F) M world P L H shape recv send pre dy init eager g HG HN HPl Hc He) as [A _].
  destruct (C76_halo_gradients (words F) M world P L H shape recv send pre' dy init' eager' g' HG HN HPl Hc' He') as [B _].
  destruct (A idx v Hw) as (_ & A1 & _). destruct (B idx v Hw) as (_ & B1 & _).
  pose proof (C62_sums F M _ _ HI (A1 p q C Hp HC)) as A2. pose proof (C62_sums F M _ _ HI (B1 p q C Hp HC)) as B2.
  split; [exact A2|]. intros F1 F2. destruct (proj1 A2 F1) as [_ E1]. destruct (proj1 B2 F2) as [_ E2]. exact (twice _ _ _ _ E1 E2).
Qed.

Theorem C77_near : C77_near_statement.
Proof. exact C77_near_proof. Qed.

Lemma C77_reproducible_partial_proof : C77_reproducible_partial_statement.
Proof.
  intros R M world P L H shape recv send calls init eager eager' g g' HG HPl HA (n & Hr & Hd) (n' & Hr' & Hd') v Hv.
  pose proof (apart_async (m_add M) world P L H shape recv send HG HPl calls init HA) as A.
  pose proof (ao_result _ _ _ _ A eager n g v Hr Hd Hv) as E. pose proof (ao_result _ _ _ _ A eager' n' g' v Hr' Hd' Hv) as E'.
  destruct E as [_ _ _ E]. destruct E' as [_ _ _ E'].
  revert E E'. generalize (h_hist (wdata (gw g v))), (h_hist (wdata (gw g' v))), (h_hist (sync_rounds (history_rounds_by P shape recv send (m_add M) calls) init v)).
  clear. intros l l' k E. revert l'. induction E as [|a b l k Hab F IH]; intros l' E'; inversion E' as [|a' ? l2 ? Hc Ht]; subst; constructor; auto.
  destruct Hab as [S V]. destruct Hc as [S' V']. split; [congruence|]. intros i _. now rewrite V, V'.
Qed.

Theorem C77_reproducible_partial : C77_reproducible_partial_statement.
Proof. exact C77_reproducible_partial_proof. Qed.

(** A layer with kernel 3 and padding 1 on three elements over three workers, in half
    precision: worker 1 gets cotangents 1 from the left and 2048 from the right and has
    1 itself. *)
Definition rp_world : list Z := [0; 2; 1].
Definition rp_P : part := mkpart 0 [0; 1; 2] [1; 1; 3].
Definition rp_L : layout := [[1]; [1]; [1; 1; 1]].
Definition rp_w : window := mkwindow [3] [1] [1] [1].
Definition rp_H : halos := layer_halos rp_L (full_window 3 rp_w).
Definition rp_shape (v : Z) : list Z := padded_shape rp_L rp_H [0; 0; v].
Definition rp_recv (v : Z) : list (Z * Z) := recv_plan rp_H [0; 0; v].
Definition rp_send (v : Z) : list (Z * Z) := send_plan rp_H [0; 0; v].
Definition rp_dy (v : Z) : tensor (words half) :=
  @mkt (words half) (rp_shape v) (fun q => match q with
    | [_; _; i] => if v =? 0 then (if i =? 1 then hz 1 else hz 5)
                   else if v =? 1 then (if i =? 1 then hz 1 else hz 7) else (if i =? 0 then hz 2048 else hz 9)
    | _ => hz 0 end).
Definition rp_zero (_ : Z) : @hst (words half) := mkhst (tzeros []) (tzeros []) (tzeros []) [].
Definition rp_rounds := history_rounds_by rp_P rp_shape rp_recv rp_send (m_add ex62_M) [HBackward rp_dy].
Definition rp_left_first := played rp_world rp_rounds rp_zero (fun _ _ _ _ => true) (fun _ => [0; 1; 2; 3]%nat) 500.
Definition rp_right_first := played rp_world rp_rounds rp_zero (fun _ _ _ _ => true) (fun _ => [1; 0; 2; 3]%nat) 500.

Lemma rp_workers idx v : worker_at rp_P idx v -> idx = [0; 0; v] /\ In v [0; 1; 2].
Proof.
  intros [Hi Hv]. inversion Hi as [|? a ? t Ha Ht]; subst. inversion Ht as [|? b ? t' Hb Ht']; subst.
  inversion Ht' as [|? c ? t'' Hc Ht'']; subst. inversion Ht''; subst.
  assert (a = 0) as -> by lia. assert (b = 0) as -> by lia.
  assert (c = 0 \/ c = 1 \/ c = 2) as [-> |[-> | ->]] by lia; simpl in Hv; inv Hv; split; try reflexivity; simpl; auto 7.
Qed.

Lemma rp_plan : layer_plan rp_world rp_P rp_L rp_w (Some (block_shape rp_L)) [1; 1; 3] rp_shape rp_recv rp_send.
Proof.
  split; [repeat constructor; simpl; lia|].
  split; [simpl; intros; lia|].
  split; [repeat split; try discriminate; repeat constructor; simpl; lia|].
  split; [reflexivity|].
  split.
  - split; [|split; [|split; [|split; [|split; [|split]]]]].
    + repeat constructor; lia.
    + repeat constructor; lia.
    + intros idx _. reflexivity.
    + repeat split; simpl; lia.
    + repeat split; repeat constructor; discriminate.
    + unfold rp_L, rp_w. split; auto. intros [|[|[|j]]] Hj; [| | |simpl in Hj; lia]; cbn [nth layout_shape map];
        (split; [cbn; lia|]); intros o Ho; show_window; lia.
    + repeat constructor.
  - intros idx v Hw. destruct (rp_workers _ _ Hw) as [-> Hv]. cbn [In] in Hv.
    destruct Hv as [<-|[<-|[<-|[]]]]; eexists; repeat split; reflexivity.
Qed.

Lemma rp_narrow : halos_narrow rp_L rp_H.
Proof.
  unfold halos_narrow, rp_L. change rp_H with [[(0, 0)]; [(0, 0)]; [(0, 1); (1, 1); (1, 0)]].
  repeat (apply Forall2_cons); [| | |apply Forall2_nil];
    intros i A B; cbn [length] in *; try lia.
  assert (i = 0 \/ i = 1) as [-> | ->] by lia; split; vm_compute; discriminate.
Qed.

Lemma rp_calls : Forall (call_ok rp_P rp_L rp_H) ([] ++ [HBackward rp_dy]).
Proof. repeat constructor. intros idx v Hw. destruct (rp_workers _ _ Hw) as [-> _]. reflexivity. Qed.

Lemma rp_left_ends : ends rp_world rp_rounds rp_zero (fun _ _ _ _ => true) rp_left_first.
Proof. apply played_ends. vm_compute. reflexivity. Qed.
Lemma rp_right_ends : ends rp_world rp_rounds rp_zero (fun _ _ _ _ => true) rp_right_first.
Proof. apply played_ends. vm_compute. reflexivity. Qed.

Theorem C77_reproducible_refuted : ~ C77_reproducible_statement.
Proof.
  intros S.
  destruct (S half ex62_M rp_world rp_P rp_L rp_w (Some (block_shape rp_L)) [1; 1; 3] rp_shape rp_recv rp_send [HBackward rp_dy] rp_zero
    (fun _ _ _ _ => true) rp_left_first rp_right_first (float_machine_ieee half) rp_plan rp_narrow rp_calls rp_left_ends rp_right_ends 1) as [_ V];
    [simpl; auto|].
  assert (X : hf_bits (tat (halo_result rp_left_first 1) [0; 0; 1]) = hf_bits (tat (halo_result rp_right_first 1) [0; 0; 1])).
  { apply (f_equal hf_bits). apply V. replace (tshape (halo_result rp_left_first 1)) with [1; 1; 3] by (vm_compute; reflexivity). repeat constructor; lia. }
  vm_compute in X. discriminate X.
Qed.

(** ** Examples *)
Example C77_near_example :
  ieee half ex62_M /\ halo_given rp_world rp_P rp_L rp_H /\ halos_narrow rp_L rp_H /\ planned rp_P rp_L rp_H rp_shape rp_recv rp_send /\
  Forall (call_ok rp_P rp_L rp_H) ([] ++ [HBackward rp_dy]) /\
  ends rp_world rp_rounds rp_zero (fun _ _ _ _ => true) rp_left_first /\ ends rp_world rp_rounds rp_zero (fun _ _ _ _ => true) rp_right_first /\
  in_bulk rp_L rp_H [0; 0; 1] [0; 0; 0] [0; 0; 1] /\
  copies rp_P rp_L rp_H [0; 0; 1] [(0, [0; 0; 1]); (1, [0; 0; 1]); (2, [0; 0; 0])] /\
  (* 1 + 1 + 2048, in two orders *)
  hf_bits (tat (halo_result rp_left_first 1) [0; 0; 1]) = hf_bits (hz 2050) /\ hf_bits (tat (halo_result rp_right_first 1) [0; 0; 1]) = hf_bits (hz 2048).
Proof.
  destruct (layer_given _ _ _ _ _ _ _ _ _ rp_plan) as (G1 & _ & G3).
  split; [apply float_machine_ieee|]. split; [exact G1|]. split; [exact rp_narrow|]. split; [exact G3|]. split; [exact rp_calls|].
  split; [exact rp_left_ends|]. split; [exact rp_right_ends|]. split; [split; [repeat constructor; lia|reflexivity]|].
  split; [apply (C76_copies rp_P rp_L rp_H [0; 0; 1]); apply G1|]. split; vm_compute; reflexivity.
Qed.

(** The same layer on six elements: what worker 1 sends to the left and to the right
    are different entries. *)
Definition ap_L : layout := [[1]; [1]; [2; 2; 2]].
Definition ap_H : halos := layer_halos ap_L (full_window 3 rp_w).
Definition ap_shape (v : Z) : list Z := padded_shape ap_L ap_H [0; 0; v].
Definition ap_recv (v : Z) : list (Z * Z) := recv_plan ap_H [0; 0; v].
Definition ap_send (v : Z) : list (Z * Z) := send_plan ap_H [0; 0; v].
Definition ap_dy (v : Z) : tensor (words half) :=
  @mkt (words half) (ap_shape v) (fun q => match q with [_; _; i] => if v =? 2 then hz (2048 + 2 * i) else hz (1 + v + i) | _ => hz 0 end).
Definition ap_x (v : Z) : tensor (words half) := @mkt (words half) (ap_shape v) (fun q => hz (v + nth 2 q 0)).
Definition ap_rounds := history_rounds_by rp_P ap_shape ap_recv ap_send (m_add ex62_M) [HForward ap_x; HBackward ap_dy].
Definition ap_left_first := played rp_world ap_rounds rp_zero (fun _ _ _ _ => true) (fun _ => [0; 1; 2; 3]%nat) 500.
Definition ap_right_first := played rp_world ap_rounds rp_zero (fun _ _ _ _ => false) (fun _ => [3; 2; 1; 0]%nat) 500.

Example C77_reproducible_example :
  halo_given rp_world rp_P ap_L ap_H /\ planned rp_P ap_L ap_H ap_shape ap_recv ap_send /\ halos_apart ap_L ap_H /\ ~ halos_apart rp_L rp_H /\
  ends rp_world ap_rounds rp_zero (fun _ _ _ _ => true) ap_left_first /\ ends rp_world ap_rounds rp_zero (fun _ _ _ _ => false) ap_right_first /\
  map (fun i => hf_bits (tat (halo_result ap_left_first 1) [0; 0; i])) [0; 1; 2; 3] = map (fun z => hf_bits (hz z)) [0; 6; 2052; 0] /\
  map (fun i => hf_bits (tat (halo_result ap_right_first 1) [0; 0; i])) [0; 1; 2; 3] = map (fun z => hf_bits (hz z)) [0; 6; 2052; 0].
Proof.
  split; [|split; [|split; [|split]]].
  - destruct (layer_given _ _ _ _ _ _ _ _ _ rp_plan) as (G1 & _). destruct G1 as (A & B & C & _).
    split; [exact A|]. split; [exact B|]. split; [exact C|]. split; [repeat constructor; lia|]. split; [reflexivity|].
    change ap_H with [[(0, 0)]; [(0, 0)]; [(0, 1); (1, 1); (1, 0)]]. repeat constructor; simpl; lia.
  - intros idx v Hw. destruct (rp_workers _ _ Hw) as [-> _]. repeat split; reflexivity.
  - unfold halos_apart, ap_L. change ap_H with [[(0, 0)]; [(0, 0)]; [(0, 1); (1, 1); (1, 0)]].
    repeat (apply Forall2_cons); [| | |apply Forall2_nil]; intros i A B; cbn [length] in *; try lia.
    assert (i = 1) as -> by lia. vm_compute. discriminate.
  - change rp_H with [[(0, 0)]; [(0, 0)]; [(0, 1); (1, 1); (1, 0)]]. intros X. inversion X as [|? ? ? ? _ Y]; subst.
    inversion Y as [|? ? ? ? _ Z]; subst. inversion Z as [|? ? ? ? W _]; subst. specialize (W 1 eq_refl eq_refl). vm_compute in W. now apply W.
  - split; [apply played_ends; vm_compute; reflexivity|]. split; [apply played_ends; vm_compute; reflexivity|].
    split; vm_compute; reflexivity.
Qed.

Print Assumptions C77_near.
Print Assumptions C77_reproducible_partial.
Print Assumptions C77_reproducible_refuted.
