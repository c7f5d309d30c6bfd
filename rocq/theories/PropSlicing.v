(** Properties C01, C02, C04, C05 (slicing helpers), C06. *)

From Coq Require Import Sorting.Sorted.
From Verif Require Import Prelude ModelSlicing SpecIndex ProofSlicing.

(** ** C01 *)

Definition C01_statement : Prop :=
  forall P n : list Z, pos_shape P -> nonneg_shape n -> length P = length n ->
  (* every global index is in the box of exactly one worker *)
  (forall g, valid_index n g ->
     exists! w, valid_index P w /\
       in_box (compute_start_index P w n) (compute_stop_index P w n) g) /\
  (* boxes contain only valid global indices *)
  (forall w g, valid_index P w ->
     in_box (compute_start_index P w n) (compute_stop_index P w n) g -> valid_index n g) /\
  (* a box has the reported shape *)
  (forall w, valid_index P w ->
     length (compute_subshape P w n) = length P /\ nonneg_shape (compute_subshape P w n) /\
     vsub (compute_stop_index P w n) (compute_start_index P w n) = compute_subshape P w n).

Lemma C01_proof : C01_statement.
Proof.
  intros P n HP Hn HL. split; [|split].
  - intros g Hg. destruct (tiling_exists P n g HP HL Hn Hg) as (w & Hw & Hb).
    exists w. split; auto. intros w' [Hw' Hb']. eapply tiling_unique; eauto.
  - intros w g Hw Hb. eapply tiling_inside; eauto.
  - intros w Hw. pose proof (valid_index_length _ _ Hw).
    split; [apply compute_subshape_length; lia|].
    split; [apply compute_subshape_nonneg; auto; lia|apply stop_minus_start; lia].
Qed.

Theorem C01_balanced_tiling : C01_statement.
Proof. exact C01_proof. Qed.

Example C01_example :
  pos_shape [2; 3] /\ nonneg_shape [5; 7] /\ valid_index [5; 7] [3; 4] /\
  valid_index [2; 3] [1; 1] /\
  compute_start_index [2; 3] [1; 1] [5; 7] = [3; 3] /\
  compute_stop_index [2; 3] [1; 1] [5; 7] = [5; 5].
Proof. repeat split; repeat constructor; lia. Qed.

Print Assumptions C01_balanced_tiling.

(** ** C02 *)

Definition C02_statement : Prop :=
  forall P n : list Z, pos_shape P -> nonneg_shape n -> length P = length n ->
  forall k, (k < length P)%nat ->
  (* any two workers: extents differ by at most one, and do not increase *)
  (forall w w', valid_index P w -> valid_index P w' -> nth k w 0 <= nth k w' 0 ->
     nth k (compute_subshape P w' n) 0 <= nth k (compute_subshape P w n) 0
       <= nth k (compute_subshape P w' n) 0 + 1) /\
  (* the extents met along a line of workers add up to the global extent *)
  (forall w, valid_index P w ->
     zsum (map (fun i => nth k (compute_subshape P (upd k i w) n) 0) (zrange (nth k P 0)))
     = nth k n 0).

Lemma C02_proof : C02_statement.
Proof.
  intros P n HP Hn HL k Hk.
  assert (Hp : 0 < nth k P 0) by (unfold pos_shape in HP; rewrite Forall_forall in HP; apply HP, nth_In, Hk).
  assert (Hm : 0 <= nth k n 0)
    by (unfold nonneg_shape in Hn; rewrite Forall_forall in Hn; apply Hn, nth_In; lia).
  split.
  - intros w w' Hw Hw' Hle.
    apply valid_index_length in Hw, Hw'.
    unfold compute_subshape. rewrite !map3_nth with (da := 0) (db := 0) (dc := 0) by lia.
    apply subshape1_balance; auto.
  - intros w Hw. apply valid_index_length in Hw.
    rewrite map_ext with (g := fun i => subshape1 (nth k P 0) i (nth k n 0)).
    + rewrite subshape1_sum_prefix by lia. apply start1_P; auto.
    + intros i. unfold compute_subshape.
      rewrite map3_nth with (da := 0) (db := 0) (dc := 0); try lia; try (rewrite upd_length; lia).
      rewrite upd_nth_eq by lia. reflexivity.
Qed.

Theorem C02_load_balanced : C02_statement.
Proof. exact C02_proof. Qed.

Example C02_example :
  valid_index [2; 3] [0; 1] /\ valid_index [2; 3] [1; 2] /\
  compute_subshape [2; 3] [0; 1] [5; 7] = [3; 2] /\
  map (fun i => nth 1 (compute_subshape [2; 3] (upd 1 i [0; 1]) [5; 7]) 0) (zrange 3) = [3; 2; 2].
Proof. repeat split; repeat constructor; lia. Qed.

Print Assumptions C02_load_balanced.

(** ** C04 *)

Definition C04_statement : Prop :=
  forall s : list Z, nonneg_shape s ->
  (* the enumeration lists each valid index exactly once *)
  (NoDup (range_index s) /\ forall idx, In idx (range_index s) <-> valid_index s idx) /\
  Z.of_nat (length (range_index s)) = zprod s /\
  (* the position in the enumeration is the row-major flat index *)
  (forall r idx, nth_error (range_index s) r = Some idx ->
     cartesian_index_c s idx = Z.of_nat r /\ row_major s idx = Z.of_nat r) /\
  (* both flat indices are bijections onto 0..size-1 *)
  (forall idx, valid_index s idx -> 0 <= cartesian_index_c s idx < zprod s) /\
  (forall i j, valid_index s i -> valid_index s j ->
     cartesian_index_c s i = cartesian_index_c s j -> i = j) /\
  (forall r, 0 <= r < zprod s -> exists idx, valid_index s idx /\ cartesian_index_c s idx = r) /\
  (forall idx, valid_index s idx ->
     0 <= cartesian_index_f s idx < zprod s /\ cartesian_index_f s idx = col_major s idx) /\
  (forall i j, valid_index s i -> valid_index s j ->
     cartesian_index_f s i = cartesian_index_f s j -> i = j) /\
  (forall r, 0 <= r < zprod s -> exists idx, valid_index s idx /\ cartesian_index_f s idx = r) /\
  (* the layout array stores ranks *)
  (forall idx, valid_index s idx -> worker_layout s idx = cartesian_index_c s idx).

Lemma C04_proof : C04_statement.
Proof.
  intros s Hs.
  split; [split; [apply range_index_nodup|intros; apply in_range_index]|].
  split; [now apply range_index_length|].
  split.
  { intros r idx Hr.
    assert (Hv : valid_index s idx) by (apply in_range_index; eapply nth_error_In; eauto).
    rewrite cartesian_index_c_row_major by now apply valid_index_length.
    pose proof (range_index_nth_row_major s idx Hv) as HN.
    pose proof (row_major_bound s idx Hv).
    assert (r = Z.to_nat (row_major s idx)) by
      (eapply NoDup_nth_error_inj; eauto using range_index_nodup).
    lia. }
  split.
  { intros idx Hv. rewrite cartesian_index_c_row_major by now apply valid_index_length.
    now apply row_major_bound. }
  split.
  { intros i j Hi Hj. rewrite !cartesian_index_c_row_major by now apply valid_index_length.
    now apply row_major_inj. }
  split.
  { intros r Hr. destruct (row_major_surj s r Hs Hr) as (idx & Hv & E). exists idx. split; auto.
    now rewrite cartesian_index_c_row_major by now apply valid_index_length. }
  split.
  { intros idx Hv. rewrite cartesian_index_f_col_major by now apply valid_index_length.
    split; auto. now apply col_major_bound. }
  split.
  { intros i j Hi Hj. rewrite !cartesian_index_f_col_major by now apply valid_index_length.
    now apply col_major_inj. }
  split.
  { intros r Hr. destruct (col_major_surj s r Hs Hr) as (idx & Hv & E). exists idx. split; auto.
    now rewrite cartesian_index_f_col_major by now apply valid_index_length. }
  intros idx Hv. rewrite cartesian_index_c_row_major by now apply valid_index_length.
  now apply worker_layout_spec.
Qed.

Theorem C04_rank_index_bijection : C04_statement.
Proof. exact C04_proof. Qed.

Example C04_example :
  nonneg_shape [2; 3; 2] /\ nth_error (range_index [2; 3; 2]) 9 = Some [1; 1; 1] /\
  cartesian_index_c [2; 3; 2] [1; 1; 1] = 9 /\ cartesian_index_f [2; 3; 2] [1; 1; 1] = 9 /\
  cartesian_index_f [2; 3; 2] [1; 2; 0] = 5 /\ worker_layout [2; 3; 2] [1; 2; 0] = 10.
Proof. repeat split; repeat constructor; lia. Qed.

Print Assumptions C04_rank_index_bijection.

(** ** C06 *)

Definition C06_statement : Prop :=
  forall (s index dims : list Z) (invert : bool),
  nonneg_shape s -> length index = length s ->
  let result := filtered_range_index s (assemble_index_filter index dims invert) in
  NoDup result /\
  StronglySorted (fun a b => row_major s a < row_major s b) result /\
  forall idx, In idx result <->
    valid_index s idx /\
    forall k, (k < length s)%nat ->
      (if invert then ~ In (Z.of_nat k) dims else In (Z.of_nat k) dims) ->
      nth k idx 0 = nth k index 0.

Lemma C06_proof : C06_statement.
Proof.
  intros s index dims invert Hs HL. cbv zeta. split; [|split].
  - apply NoDup_filter. apply range_index_nodup.
  - apply StronglySorted_filter. now apply range_index_sorted.
  - intros idx. now apply filtered_spec.
Qed.

Theorem C06_index_filters : C06_statement.
Proof. exact C06_proof. Qed.

Example C06_example :
  nonneg_shape [2; 3; 2] /\
  filtered_range_index [2; 3; 2] (assemble_index_filter [1; 2; 0] [0; 2] false)
    = [[1; 0; 0]; [1; 1; 0]; [1; 2; 0]] /\
  filtered_range_index [2; 3; 2] (assemble_index_filter [1; 2; 0] [0; 2] true)
    = [[0; 2; 0]; [0; 2; 1]; [1; 2; 0]; [1; 2; 1]].
Proof. repeat split; repeat constructor; lia. Qed.

Print Assumptions C06_index_filters.
