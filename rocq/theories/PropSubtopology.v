(** Properties of [create_cartesian_subtopology_partition]. *)

From Verif Require Import Prelude SpecIndex ModelSlicing ProofSlicing ModelPartition SpecPartition ProofPartition
  Ring Tensor ModelCollectives ModelSubtopology.

(** ** C66 *)

(** The entries of a list that are flagged, in order. *)
Definition kept {A} (keep : list bool) (l : list A) : list A := map snd (filter fst (combine keep l)).

(** Two indices agree in all dimensions that are not flagged. *)
Definition agree_elsewhere (keep : list bool) (a b : list Z) : Prop :=
  forall k, nth_error keep k = Some false -> nth_error a k = nth_error b k.

Definition C66_statement : Prop :=
  forall (P : part) (keep : list bool),
  part_ok P -> length keep = length (p_shape P) ->
  (forall v, ~ In v (p_ranks P) -> create_cartesian_subtopology P (Bools keep) v = Ok None) /\
  (forall v idx, worker_at P idx v ->
     exists Q, create_cartesian_subtopology P (Bools keep) v = Ok (Some Q) /\
       p_root Q = p_root P /\ p_shape Q = kept keep (p_shape P) /\
       NoDup (p_ranks Q) /\ Z.of_nat (length (p_ranks Q)) = zprod (p_shape Q) /\
       worker_at Q (kept keep idx) v /\
       (* its workers, and where they are *)
       (forall k u, worker_at Q k u <->
          exists idx', worker_at P idx' u /\ agree_elsewhere keep idx' idx /\ k = kept keep idx') /\
       (* all of them create the same partition *)
       (forall u, In u (p_ranks Q) -> create_cartesian_subtopology P (Bools keep) u = Ok (Some Q))).

Lemma kept_select {A} keep (l : list A) : kept keep l = select keep l.
Proof.
  unfold kept. revert l. induction keep as [|b keep IH]; intros [|a l]; try reflexivity.
  cbn [combine filter fst select]. destruct b; cbn [map snd]; now rewrite IH.
Qed.

Lemma merge_valid s keep idx : valid_index s idx -> length keep = length s ->
  forall k, valid_index (select keep s) k ->
  valid_index s (merge keep k idx) /\ select keep (merge keep k idx) = k /\ agree_elsewhere keep (merge keep k idx) idx.
Proof.
  intros H. revert keep. induction H as [|n i s idx Hi Hs IH]; intros [|b keep] HL k Hk; try discriminate HL.
  - inversion Hk; subst. split; [constructor|]. split; [reflexivity|]. intros [|j] E; discriminate E.
  - injection HL as HL. destruct b; cbn [select] in Hk.
    + inversion Hk as [|? a ? k' Ha Hk']; subst. destruct (IH keep HL k' Hk') as (A & B & C). cbn [merge select].
      split; [now constructor|]. split; [now rewrite B|]. intros [|j] E; [discriminate E|]. cbn in *. now apply C.
    + destruct (IH keep HL k Hk) as (A & B & C). cbn [merge select]. split; [now constructor|]. split; [exact B|].
      intros [|j] E; [reflexivity|]. cbn in *. now apply C.
Qed.

Lemma merge_unique keep idx idx' : length idx = length keep -> length idx' = length keep ->
  agree_elsewhere keep idx' idx -> idx' = merge keep (select keep idx') idx.
Proof.
  revert idx idx'. induction keep as [|b keep IH]; intros [|i idx] [|i' idx'] H H' A; try discriminate; [reflexivity|].
  injection H as H. injection H' as H'.
  assert (A' : agree_elsewhere keep idx' idx) by (intros k Hk; apply (A (S k)); exact Hk).
  destruct b; cbn [select merge].
  - f_equal. now apply IH.
  - pose proof (A 0%nat eq_refl) as E. cbn in E. injection E as ->. f_equal. now apply IH.
Qed.

Lemma merge_same keep k idx idx' : length idx = length keep -> length idx' = length keep ->
  agree_elsewhere keep idx' idx -> merge keep k idx' = merge keep k idx.
Proof.
  revert k idx idx'. induction keep as [|b keep IH]; intros k [|i idx] [|i' idx'] H H' A; try discriminate; [reflexivity|].
  injection H as H. injection H' as H'.
  assert (A' : agree_elsewhere keep idx' idx) by (intros j Hj; apply (A (S j)); exact Hj).
  destruct b; cbn [merge].
  - destruct k as [|a k]; [reflexivity|]. f_equal. now apply IH.
  - pose proof (A 0%nat eq_refl) as E. cbn in E. injection E as ->. f_equal. now apply IH.
Qed.

Lemma nodup_map {A B} (f : A -> B) l : (forall a b, In a l -> In b l -> f a = f b -> a = b) -> NoDup l -> NoDup (map f l).
Proof.
  intros Hf. induction 1 as [|a l Ha Hl IH]; [constructor|]. cbn [map]. constructor.
  - intros H. apply in_map_iff in H as (b & E & Hb). apply Ha. rewrite (Hf a b); auto; [now left|now right].
  - apply IH. intros; apply Hf; auto; now right.
Qed.

Section Sub.
  Variables (P : part) (keep : list bool).
  Hypothesis HP : part_ok P.
  Hypothesis HL : length keep = length (p_shape P).

  Definition sub_ranks (idx : list Z) : list Z :=
    map (fun k => nth (Z.to_nat (row_major (p_shape P) (merge keep k idx))) (p_ranks P) 0) (range_index (select keep (p_shape P))).

  Lemma cart_sub_eq idx : valid_index (p_shape P) idx -> cart_sub P keep idx = Ok (sub_ranks idx).
  Proof.
    intros Hv. unfold cart_sub. rewrite (proj2 (Nat.eqb_eq _ _) HL).
    rewrite (rmap_ok _ (fun k => row_major (p_shape P) (merge keep k idx))).
    - cbn [rbind]. unfold incl_ranks, sub_ranks. now rewrite map_map.
    - intros k Hk. apply in_range_index in Hk. apply cart_rank_ok. now apply (merge_valid _ keep idx).
  Qed.

  Lemma create_eq v idx : worker_at P idx v ->
    create_cartesian_subtopology P (Bools keep) v = Ok (Some (mkpart (p_root P) (sub_ranks idx) (kept keep (p_shape P)))).
  Proof.
    intros Hv. unfold create_cartesian_subtopology. rewrite (proj2 (index_in_spec P v idx HP) Hv).
    cbn [remain_dims]. rewrite cart_sub_eq by apply Hv. cbn [rbind index_shape].
    rewrite (proj2 (Nat.eqb_eq _ _) HL), kept_select. reflexivity.
  Qed.

  Lemma sub_worker idx k u : valid_index (p_shape P) idx ->
    (worker_at (mkpart (p_root P) (sub_ranks idx) (kept keep (p_shape P))) k u <->
     exists idx', worker_at P idx' u /\ agree_elsewhere keep idx' idx /\ k = kept keep idx').
  Proof.
    intros Hv. unfold worker_at at 1. cbn [p_shape p_ranks]. rewrite kept_select. split.
    - intros [Hk E]. unfold sub_ranks in E. rewrite nth_error_map, (range_index_nth_row_major _ k Hk) in E.
      cbn [option_map] in E. injection E as <-.
      destruct (merge_valid _ keep idx Hv HL k Hk) as (A & B & C).
      exists (merge keep k idx). repeat split; auto.
      + pose proof (row_major_bound _ _ A) as Hb. destruct HP as (_ & _ & _ & HZ). apply nth_error_nth'. lia.
      + now rewrite kept_select.
    - intros (idx' & [Hv' E] & A & ->). rewrite kept_select.
      pose proof (valid_index_length _ _ Hv) as L. pose proof (valid_index_length _ _ Hv') as L'.
      assert (Hk : valid_index (select keep (p_shape P)) (select keep idx')) by now apply select_valid.
      split; [exact Hk|]. unfold sub_ranks. rewrite nth_error_map, (range_index_nth_row_major _ _ Hk). cbn [option_map].
      rewrite <- (merge_unique keep idx idx') by (auto; lia). f_equal. now apply nth_error_nth.
  Qed.
End Sub.

Lemma C66_proof : C66_statement.
Proof.
  intros P keep HP HL. split.
  - intros v Hv. unfold create_cartesian_subtopology. now rewrite (proj2 (index_in_none P v) Hv).
  - intros v idx Hv. pose proof (proj1 Hv) as Hi.
    pose proof (fun k u => sub_worker P keep HP HL idx k u Hi) as W.
    assert (HLen : Z.of_nat (length (sub_ranks P keep idx)) = zprod (kept keep (p_shape P))).
    { unfold sub_ranks. rewrite map_length, kept_select. apply range_index_length.
      destruct HP as (_ & _ & Hp & _). apply Forall_forall. intros x Hx. apply select_In in Hx.
      unfold pos_shape in Hp. rewrite Forall_forall in Hp. specialize (Hp x Hx). lia. }
    exists (mkpart (p_root P) (sub_ranks P keep idx) (kept keep (p_shape P))). cbn [p_root p_ranks p_shape] in *.
    split; [now apply create_eq|]. split; [reflexivity|]. split; [reflexivity|]. split; [|split; [exact HLen|split; [|split]]].
    + unfold sub_ranks. apply nodup_map; [|apply range_index_nodup].
      intros k k' Hk Hk' E. apply in_range_index in Hk, Hk'.
      destruct (merge_valid _ keep idx Hi HL k Hk) as (A & B & _). destruct (merge_valid _ keep idx Hi HL k' Hk') as (A' & B' & _).
      destruct HP as (HN & _ & _ & HZ). pose proof (row_major_bound _ _ A). pose proof (row_major_bound _ _ A').
      rewrite NoDup_nth in HN. apply HN in E; [|lia|lia]. apply Z2Nat.inj in E; [|lia|lia].
      apply row_major_inj in E; auto. congruence.
    + apply W. exists idx. repeat split; auto; apply Hv.
    + exact W.
    + intros u Hu.
      assert (exists k, worker_at (mkpart (p_root P) (sub_ranks P keep idx) (kept keep (p_shape P))) k u) as (k & Hk).
      { apply In_nth_error in Hu as (m & Hm).
        assert (Hb : 0 <= Z.of_nat m < zprod (kept keep (p_shape P))).
        { rewrite <- HLen. assert (m < length (sub_ranks P keep idx))%nat by (apply nth_error_Some; congruence). lia. }
        destruct (row_major_surj (kept keep (p_shape P)) (Z.of_nat m)) as (k & K1 & K2); [|exact Hb|].
        - destruct HP as (_ & _ & Hp & _). apply Forall_forall. intros x Hx. rewrite kept_select in Hx. apply select_In in Hx.
          unfold pos_shape in Hp. rewrite Forall_forall in Hp. specialize (Hp x Hx). lia.
        - exists k. split; [exact K1|]. cbn [p_ranks p_shape]. now rewrite K2, Nat2Z.id. }
      apply W in Hk as (idx' & Hu' & A & _). rewrite (create_eq P keep HP HL u idx' Hu'). do 3 f_equal.
      unfold sub_ranks. apply map_ext. intros k'. f_equal. f_equal. f_equal.
      pose proof (valid_index_length _ _ Hi). pose proof (valid_index_length _ _ (proj1 Hu')). apply merge_same; auto; lia.
Qed.

Theorem C66_subtopology : C66_statement.
Proof. exact C66_proof. Qed.

(** The groups over which [assemble_global_tensor_structure] sums the extents of
    dimension [i] (tensor_comm.py:107-118) are those of this partition with the
    single flag [i]. *)
Definition C66_assemble_statement : Prop :=
  forall (P : part) (i : nat) (v : Z),
  part_ok P -> (i < length (p_shape P))%nat -> In v (p_ranks P) ->
  exists Q, create_cartesian_subtopology P (Bools (upd i true (repeat false (length (p_shape P))))) v = Ok (Some Q) /\
            cart_sub_ranks P i v = Ok (p_ranks Q) /\ p_shape Q = [nth i (p_shape P) 0].

Lemma select_none (l : list Z) : select (repeat false (length l)) l = [].
Proof. induction l; cbn; auto. Qed.
Lemma merge_none (l : list Z) : merge (repeat false (length l)) [] l = l.
Proof. induction l; cbn; congruence. Qed.

Lemma select_single i (l : list Z) : (i < length l)%nat -> select (upd i true (repeat false (length l))) l = [nth i l 0].
Proof.
  revert i. induction l as [|a l IH]; intros [|i] H; cbn in H; try lia; cbn.
  - now rewrite select_none.
  - apply IH. lia.
Qed.
Lemma merge_single i k (l : list Z) : (i < length l)%nat -> merge (upd i true (repeat false (length l))) [k] l = upd i k l.
Proof.
  revert i. induction l as [|a l IH]; intros [|i] H; cbn in H; try lia; cbn.
  - now rewrite merge_none.
  - f_equal. apply IH. lia.
Qed.

Lemma C66_assemble_proof : C66_assemble_statement.
Proof.
  intros P i v HP Hi Hv. set (keep := upd i true (repeat false (length (p_shape P)))).
  assert (HL : length keep = length (p_shape P)) by (unfold keep; now rewrite upd_length, repeat_length).
  destruct (worker_at_exists P v HP Hv) as (idx & Hw). pose proof (valid_index_length _ _ (proj1 Hw)) as L.
  exists (mkpart (p_root P) (sub_ranks P keep idx) (kept keep (p_shape P))). split; [now apply create_eq|]. cbn [p_ranks p_shape].
  split; [|rewrite kept_select; now apply select_single].
  unfold cart_sub_ranks. rewrite (proj2 (index_in_spec P v idx HP) Hw).
  rewrite (rmap_ok _ (fun k => row_major (p_shape P) (upd i k idx))).
  - cbn [rbind]. unfold incl_ranks, sub_ranks. f_equal. rewrite map_map. unfold keep at 2. rewrite select_single by exact Hi.
    cbn [range_index map]. induction (zrange (nth i (p_shape P) 0)) as [|k ks IH]; [reflexivity|].
    cbn [flat_map map app]. f_equal; [|exact IH]. unfold keep. rewrite <- L. rewrite merge_single by lia. reflexivity.
  - intros k Hk. apply in_zrange in Hk. apply cart_rank_ok.
    pose proof (merge_valid _ keep idx (proj1 Hw) HL [k]) as M. unfold keep in M. rewrite select_single in M by exact Hi.
    rewrite <- L in M. rewrite merge_single in M by lia. apply M. repeat constructor; lia.
Qed.

Theorem C66_assemble : C66_assemble_statement.
Proof. exact C66_assemble_proof. Qed.

(** Flags given as integers are positions for numpy but truth values for MPI: the
    partition then has a shape that does not fit its workers. *)
Definition C66_integers_statement : Prop :=
  forall (P : part) (l : list Z) (v : Z),
  part_ok P -> In v (p_ranks P) -> length l = length (p_shape P) -> Forall (fun z => z = 0 \/ z = 1) l ->
  exists Q, create_cartesian_subtopology P (Ints l) v = Ok (Some Q) /\ Z.of_nat (length (p_ranks Q)) = zprod (p_shape Q).

Theorem C66_integers_refuted : ~ C66_integers_statement.
Proof.
  intros H. set (P := mkpart 0 [0; 1; 2; 3; 4; 5] [2; 3]).
  assert (HP : part_ok P).
  { split; [repeat constructor; cbn; intuition lia|]. split; [discriminate|]. split; [repeat constructor; lia|reflexivity]. }
  destruct (H P [0; 1] 4 HP ltac:(cbn; tauto) eq_refl (Forall_cons _ (or_introl eq_refl) (Forall_cons _ (or_intror eq_refl) (Forall_nil _)))) as (Q & E & F).
  vm_compute in E. injection E as <-. vm_compute in F. discriminate F.
Qed.

(** Worker 9 of a 2 x 3 x 2 partition keeps the first and last dimension. *)
Example C66_example :
  let P := mkpart 0 [10; 11; 12; 13; 14; 15; 16; 17; 18; 19; 20; 21] [2; 3; 2] in
  part_ok P /\ worker_at P [1; 1; 1] 19 /\
  create_cartesian_subtopology P (Bools [true; false; true]) 19 = Ok (Some (mkpart 0 [12; 13; 18; 19] [2; 2])) /\
  create_cartesian_subtopology P (Bools [true; false; true]) 5 = Ok None /\
  create_cartesian_subtopology P (Bools [true; true]) 19 = Raise ErrValue.
Proof.
  split; [|split; [|repeat split]].
  - split; [repeat constructor; cbn; intuition lia|]. split; [discriminate|]. split; [repeat constructor; lia|reflexivity].
  - split; [repeat constructor; lia|reflexivity].
Qed.

Print Assumptions C66_subtopology.
Print Assumptions C66_assemble.
Print Assumptions C66_integers_refuted.
