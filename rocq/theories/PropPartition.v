(** Partition properties: C07, C08, C09, C11, C12, C13. *)

From Coq Require Import Sorting.Permutation.
From Verif Require Import Prelude ModelSlicing ModelPartition SpecIndex SpecPartition
  ProofSlicing ProofPartition.

(** ** C07 *)

(** The documented outcome of an accepted broadcast: every source worker is the
    root of one group consisting of itself and the destinations paired with it;
    every destination has exactly one paired source and receives in that
    source's group. *)
Definition bc_documented (Ps Pd : part) (ts td : bool) : Prop :=
  forall v, In v (p_ranks Ps) \/ In v (p_ranks Pd) ->
  exists x, create_broadcast_partition_to Ps Pd ts td v = Ok x /\
    (In v (p_ranks Ps) ->
       exists g, x_send x = Some (v :: g) /\ NoDup (v :: g) /\
         forall d, In d (v :: g) <-> d = v \/ paired Ps Pd ts td v d) /\
    (~ In v (p_ranks Ps) -> x_send x = None) /\
    (In v (p_ranks Pd) ->
       exists s xs g, paired Ps Pd ts td s v /\
         (forall s', paired Ps Pd ts td s' v -> s' = s) /\
         create_broadcast_partition_to Ps Pd ts td s = Ok xs /\
         x_send xs = Some (s :: g) /\ x_recv x = Some (s :: g)) /\
    (~ In v (p_ranks Pd) -> x_recv x = None).

Definition bc_rules (Ps Pd : part) (ts td : bool) : Prop :=
  (bc_compatible (flip ts (p_shape Ps)) (flip td (p_shape Pd)) -> bc_documented Ps Pd ts td) /\
  (~ bc_compatible (flip ts (p_shape Ps)) (flip td (p_shape Pd)) ->
     forall v, In v (p_ranks Ps) \/ In v (p_ranks Pd) ->
     create_broadcast_partition_to Ps Pd ts td v =
       Raise (if (length (p_shape Pd) <? length (p_shape Ps))%nat then ErrDim else ErrMatch)) /\
  (forall v, ~ In v (p_ranks Ps) -> ~ In v (p_ranks Pd) ->
     create_broadcast_partition_to Ps Pd ts td v = Ok (mkcross None None [])).

Definition C07_statement : Prop :=
  forall Ps Pd (t : bool), part_ok Ps -> part_ok Pd -> p_root Ps = p_root Pd ->
  bc_rules Ps Pd t t.

(** The padded shapes on which the code works. *)
Definition src_padded (Ps Pd : part) (ts td : bool) : list Z :=
  repeat 1 (length (flip td (p_shape Pd)) - length (flip ts (p_shape Ps))) ++ flip ts (p_shape Ps).

Definition matched (Ps Pd : part) (ts td : bool) : list Z :=
  select (map2 Z.eqb (src_padded Ps Pd ts td) (flip td (p_shape Pd))) (src_padded Ps Pd ts td).

Lemma paired_scol Ps Pd ts td : part_ok Ps -> part_ok Pd ->
  bc_compatible (flip ts (p_shape Ps)) (flip td (p_shape Pd)) ->
  (forall i, valid_index (matched Ps Pd ts td) i ->
     flat_index ts (matched Ps Pd ts td) i = flat_index td (matched Ps Pd ts td) i) ->
  forall s d, paired Ps Pd ts td s d <->
    In s (p_ranks Ps) /\ In d (p_ranks Pd) /\ scol Ps Pd ts td s = dcol Ps Pd ts td d.
Proof.
  intros H1 H2 HC HA s d. split.
  - intros (si & di & Hs & Hd & E).
    split; [eapply worker_at_In; eauto|]. split; [eapply worker_at_In; eauto|].
    eapply scol_dcol_iff; eauto.
  - intros (Hs & Hd & E).
    destruct (worker_at_exists Ps s H1 Hs) as [si Hsi].
    destruct (worker_at_exists Pd d H2 Hd) as [di Hdi].
    exists si, di. split; auto. split; auto. eapply scol_dcol_iff; eauto.
Qed.

Lemma bc_inactive Ps Pd ts td v : ~ In v (p_ranks Ps) -> ~ In v (p_ranks Pd) ->
  create_broadcast_partition_to Ps Pd ts td v = Ok (mkcross None None []).
Proof.
  intros H1 H2. unfold create_broadcast_partition_to.
  apply is_active_false in H1, H2. now rewrite H1, H2.
Qed.

Lemma bc_documented_of_agree Ps Pd ts td : part_ok Ps -> part_ok Pd -> p_root Ps = p_root Pd ->
  bc_compatible (flip ts (p_shape Ps)) (flip td (p_shape Pd)) ->
  (forall i, valid_index (matched Ps Pd ts td) i ->
     flat_index ts (matched Ps Pd ts td) i = flat_index td (matched Ps Pd ts td) i) ->
  bc_documented Ps Pd ts td.
Proof.
  intros H1 H2 HR HC HA v Hv.
  pose proof (paired_scol Ps Pd ts td H1 H2 HC HA) as HP.
  set (U := group_union (p_ranks Ps) (p_ranks Pd)).
  assert (HU : forall u, In u U <-> In u (p_ranks Ps) \/ In u (p_ranks Pd)) by (intros; apply group_union_in).
  assert (HN : NoDup U) by (apply group_union_nodup; [apply H1|apply H2]).
  assert (HG : forall s, In s (p_ranks Ps) -> forall d,
     In d (colour_group U (dcol Ps Pd ts td) s (scol Ps Pd ts td s)) <-> d = s \/ paired Ps Pd ts td s d).
  { intros s Hs d. rewrite colour_group_in, HP, HU.
    destruct (in_dec Z.eq_dec d (p_ranks Pd)) as [I|I].
    - intuition.
    - split; [|tauto]. intros [->|[_ E]]; auto. exfalso.
      rewrite dcol_neg in E by auto. pose proof (scol_nonneg Ps Pd ts td H1 s Hs) as N. lia. }
  destruct (broadcast_run Ps Pd ts td H1 H2 HR HC v) as (calls & HC1 & ->); [now apply HU|].
  eexists. split; [reflexivity|]. cbn [x_send x_recv]. fold U.
  split; [|split; [|split]].
  - intros I. destruct (send_of_active Ps Pd ts td H1 HC U HN HU v I) as [_ ->].
    eexists. split; [reflexivity|]. split; [now apply colour_group_nodup|]. now apply HG.
  - intros I. now rewrite send_of_inactive.
  - intros I. destruct (recv_of_active Ps Pd ts td H1 H2 HC U HN HU v I) as [_ (r & [Hr1 Hr2] & ->)].
    assert (Hru : In r U) by (apply HU; auto).
    destruct (broadcast_run Ps Pd ts td H1 H2 HR HC r Hru) as (calls' & HC2 & E).
    exists r. eexists. eexists. split; [apply HP; auto|]. split; [|split; [exact E|split]].
    + intros s' Hs'. apply HP in Hs' as (Hs1 & _ & Hs2).
      apply (scol_inj Ps Pd ts td); auto. congruence.
    + cbn [x_send]. fold U.
      destruct (send_of_active Ps Pd ts td H1 HC U HN HU r Hr1) as [_ ->]. reflexivity.
    + now rewrite Hr2.
  - intros I. now rewrite recv_of_inactive.
Qed.

Lemma C07_proof : C07_statement.
Proof.
  intros Ps Pd t H1 H2 HR. split; [|split].
  - intros HC. apply bc_documented_of_agree; auto.
  - intros HC v Hv. now apply broadcast_rejects.
  - intros v. apply bc_inactive.
Qed.

Theorem C07_broadcast_partitions : C07_statement.
Proof. exact C07_proof. Qed.

(** Source workers 0,1,2 as a 3x1 grid, destination workers 2..7 as 2x3x1:
    worker 5 at (1,0,0) receives from source worker 0 in group [0; 2; 5], and
    worker 2, both source and destination, is in two groups. *)
Definition ex_src : part := mkpart 0 [0; 1; 2] [3; 1].
Definition ex_dst : part := mkpart 0 [2; 3; 4; 5; 6; 7] [2; 3; 1].

Example C07_example :
  part_ok ex_src /\ part_ok ex_dst /\
  bc_compatible (p_shape ex_src) (p_shape ex_dst) /\
  paired ex_src ex_dst false false 0 5 /\
  create_broadcast_partition_to ex_src ex_dst false false 5
    = Ok (mkcross None (Some [0; 2; 5]) [[0; 2; 5]]) /\
  create_broadcast_partition_to ex_src ex_dst false false 2
    = Ok (mkcross (Some [2; 4; 7]) (Some [0; 2; 5]) [[0; 2; 5]; [2; 4; 7]]) /\
  create_broadcast_partition_to ex_src (mkpart 0 [2; 3; 4; 5; 6; 7] [3; 2; 1]) false false 2
    = Raise ErrMatch.
Proof.
  split; [|split; [|split; [|split; [|split; [|split]]]]]; try reflexivity.
  - repeat split; try discriminate; repeat constructor; simpl; lia.
  - repeat split; try discriminate; repeat constructor; simpl; lia.
  - split; [simpl; lia|]. repeat constructor; auto.
  - exists [0; 0], [1; 0; 0]. repeat split; repeat constructor; simpl; lia.
Qed.

Print Assumptions C07_broadcast_partitions.

(** ** C08 *)

(** The property as documented. *)
Definition C08_statement : Prop :=
  forall Ps Pd (ts td : bool), part_ok Ps -> part_ok Pd -> p_root Ps = p_root Pd ->
  ts <> td -> bc_rules Ps Pd ts td.

(** What holds: incompatible shapes are refused everywhere, and an accepted
    broadcast follows the documented pairing exactly when at most one dimension
    of the source has an extent other than one.  Missing from the full
    statement: sources with two or more non-trivial dimensions, for which it is
    false. *)
Definition C08_partial_statement : Prop :=
  forall Ps Pd (ts td : bool), part_ok Ps -> part_ok Pd -> p_root Ps = p_root Pd ->
  ts <> td ->
  (bc_compatible (flip ts (p_shape Ps)) (flip td (p_shape Pd)) ->
     (bc_documented Ps Pd ts td <-> at_most_one_nontrivial (p_shape Ps))) /\
  (~ bc_compatible (flip ts (p_shape Ps)) (flip td (p_shape Pd)) ->
     forall v, In v (p_ranks Ps) \/ In v (p_ranks Pd) ->
     create_broadcast_partition_to Ps Pd ts td v =
       Raise (if (length (p_shape Pd) <? length (p_shape Ps))%nat then ErrDim else ErrMatch)) /\
  (forall v, ~ In v (p_ranks Ps) -> ~ In v (p_ranks Pd) ->
     create_broadcast_partition_to Ps Pd ts td v = Ok (mkcross None None [])).

Lemma matched_amo Ps Pd ts td :
  bc_compatible (flip ts (p_shape Ps)) (flip td (p_shape Pd)) ->
  (at_most_one_nontrivial (matched Ps Pd ts td) <-> at_most_one_nontrivial (p_shape Ps)).
Proof.
  intros HC. unfold matched. rewrite amo_select.
  - unfold src_padded. now rewrite amo_pad, amo_flip.
  - apply compat_pad; auto. apply HC.
Qed.

Lemma pos_flip t s : pos_shape s -> pos_shape (flip t s).
Proof. destruct t; simpl; auto. apply Forall_rev. Qed.

Lemma flat_index_row_col t s i : valid_index s i ->
  flat_index t s i = if t then col_major s i else row_major s i.
Proof.
  intros H. apply valid_index_length in H. unfold flat_index. destruct t.
  - now apply cartesian_index_f_col_major.
  - now apply cartesian_index_c_row_major.
Qed.

Lemma flat_agree_of_amo ts td s : at_most_one_nontrivial s ->
  forall i, valid_index s i -> flat_index ts s i = flat_index td s i.
Proof.
  intros H i Hi. rewrite !flat_index_row_col by auto. destruct ts, td; auto.
  - symmetry. now apply row_col_agree.
  - now apply row_col_agree.
Qed.

Lemma bc_documented_amo Ps Pd ts td : part_ok Ps -> part_ok Pd -> p_root Ps = p_root Pd ->
  ts <> td -> bc_compatible (flip ts (p_shape Ps)) (flip td (p_shape Pd)) ->
  bc_documented Ps Pd ts td -> at_most_one_nontrivial (p_shape Ps).
Proof.
  intros H1 H2 HR Hne HC HD. apply (matched_amo Ps Pd ts td HC).
  assert (HCF : compat_full (src_padded Ps Pd ts td) (flip td (p_shape Pd)))
    by (apply compat_pad; auto; apply HC).
  assert (HposS : pos_shape (src_padded Ps Pd ts td)).
  { unfold src_padded. apply Forall_app. split.
    - apply Forall_forall. intros x Hx. apply repeat_spec in Hx. lia.
    - apply pos_flip, H1. }
  apply row_col_agree_inv.
  { apply Forall_forall. intros x Hx. apply select_In in Hx.
    unfold pos_shape in HposS. rewrite Forall_forall in HposS. auto. }
  intros i Hi.
  (* a destination worker with these matched coordinates *)
  assert (Hi' : valid_index (select (map2 Z.eqb (src_padded Ps Pd ts td) (flip td (p_shape Pd)))
                   (flip td (p_shape Pd))) i).
  { unfold matched in Hi. now rewrite select_shapes_eq in Hi. }
  destruct (unselect_dst (src_padded Ps Pd ts td) (flip td (p_shape Pd)) i) as (b & Hb & Eb); auto.
  { apply pos_flip, H2. }
  { eapply Forall2_length; eauto. }
  assert (Vb : valid_index (p_shape Pd) (flip td b)).
  { apply (valid_index_flip td). now rewrite flip_flip. }
  destruct (worker_exists Pd _ H2 Vb) as [d Hd].
  assert (Id : In d (p_ranks Pd)) by (eapply worker_at_In; eauto).
  destruct (HD d (or_intror Id)) as (x & Ex & _ & _ & HRv & _).
  destruct (HRv Id) as (s & xs & g & (si & di & Hsi & Hdi & Epr) & _ & Exs & Es & Er).
  assert (di = flip td b) by (eapply worker_at_fun; eauto). subst di.
  assert (Is : In s (p_ranks Ps)) by (eapply worker_at_In; eauto).
  set (U := group_union (p_ranks Ps) (p_ranks Pd)).
  assert (HU : forall u, In u U <-> In u (p_ranks Ps) \/ In u (p_ranks Pd)) by (intros; apply group_union_in).
  assert (HN : NoDup U) by (apply group_union_nodup; [apply H1|apply H2]).
  destruct (broadcast_run Ps Pd ts td H1 H2 HR HC d) as (calls & _ & E); [now apply HU; right|].
  rewrite E in Ex. injection Ex as <-. cbn [x_recv] in Er. fold U in Er.
  destruct (recv_of_active Ps Pd ts td H1 H2 HC U HN HU d Id) as [_ (r & [Hr1 Hr2] & Er')].
  rewrite Er' in Er. injection Er as -> _.
  (* colours of the actual and of the documented source *)
  destruct (scol_at Ps Pd ts td H1 si s Hsi) as [Esc _].
  destruct (dcol_at Ps Pd ts td H2 _ d Hd) as [Edc _].
  rewrite flip_flip in Edc. rewrite Hr2 in Esc. rewrite Esc in Edc.
  rewrite flip_flip in Epr.
  assert (HLb : length b = length (flip td (p_shape Pd))) by now apply valid_index_length.
  assert (Esel : select (map2 Z.eqb (src_padded Ps Pd ts td) (flip td (p_shape Pd)))
            (repeat 0 (length (flip td (p_shape Pd)) - length (flip ts (p_shape Ps))) ++ flip ts si) = i).
  { rewrite <- Eb. apply select_eq_proj; auto.
    - apply src_cart_valid, Hsi.
    - unfold src_padded. rewrite <- HLb, proj_pad by (rewrite HLb; apply HC). now rewrite Epr. }
  unfold src_padded in Esel, Eb. rewrite Esel, Eb in Edc. fold (src_padded Ps Pd ts td) in Edc.
  fold (matched Ps Pd ts td) in Edc. rewrite !flat_index_row_col in Edc by auto.
  destruct ts, td; congruence.
Qed.

Lemma C08_partial_proof : C08_partial_statement.
Proof.
  intros Ps Pd ts td H1 H2 HR Hne. split; [|split].
  - intros HC. split.
    + now apply bc_documented_amo.
    + intros HA. apply bc_documented_of_agree; auto. apply flat_agree_of_amo.
      now apply matched_amo.
  - intros HC v Hv. now apply broadcast_rejects.
  - intros v. apply bc_inactive.
Qed.

Theorem C08_transposed_broadcast_partial : C08_partial_statement.
Proof. exact C08_partial_proof. Qed.

(** Source 3x2 transposed onto a 2x3 destination: destination worker (0,1)
    should receive from the source worker whose reversed index is (0,1), that is
    source index (1,0), worker 2; it is put in the group of worker 1. *)
Definition ex8_src : part := mkpart 0 [0; 1; 2; 3; 4; 5] [3; 2].
Definition ex8_dst : part := mkpart 0 [6; 7; 8; 9; 10; 11] [2; 3].

Lemma ex8_ok : part_ok ex8_src /\ part_ok ex8_dst.
Proof. split; repeat split; try discriminate; repeat constructor; simpl; lia. Qed.

Theorem C08_transposed_broadcast_refuted : ~ C08_statement.
Proof.
  intros H. destruct ex8_ok as [H1 H2].
  destruct (H ex8_src ex8_dst true false H1 H2 eq_refl ltac:(discriminate)) as [HD _].
  assert (HC : bc_compatible (flip true (p_shape ex8_src)) (flip false (p_shape ex8_dst))).
  { split; [simpl; lia|]. repeat constructor; auto. }
  specialize (HD HC). apply bc_documented_amo in HD; auto; try discriminate.
  assert (0%nat = 1%nat) by (apply HD; simpl; lia). discriminate.
Qed.

Example C08_refuted_example :
  paired ex8_src ex8_dst true false 2 7 /\
  create_broadcast_partition_to ex8_src ex8_dst true false 7
    = Ok (mkcross None (Some [1; 7]) [[1; 7]]).
Proof.
  split; [|reflexivity]. exists [1; 0], [0; 1]. repeat split; repeat constructor; simpl; lia.
Qed.

(** A case in which the documented pairing holds: a 1x3 source, transposed. *)
Example C08_example :
  let Ps := mkpart 0 [0; 1; 2] [1; 3] in
  let Pd := mkpart 0 [2; 3; 4; 5; 6; 7] [3; 2] in
  part_ok Ps /\ part_ok Pd /\ at_most_one_nontrivial (p_shape Ps) /\
  bc_compatible (flip true (p_shape Ps)) (flip false (p_shape Pd)) /\
  create_broadcast_partition_to Ps Pd true false 7
    = Ok (mkcross None (Some [2; 6; 7]) [[2; 6; 7]]).
Proof.
  cbv zeta. split; [|split; [|split; [|split]]]; try reflexivity.
  - repeat split; try discriminate; repeat constructor; simpl; lia.
  - repeat split; try discriminate; repeat constructor; simpl; lia.
  - cbn [p_shape]. apply amo_cons_one. apply amo_cons; [lia|constructor].
  - split; [simpl; lia|]. unfold trailing. simpl.
    constructor; [auto|]. constructor; [auto|constructor].
Qed.

Print Assumptions C08_transposed_broadcast_partial.
Print Assumptions C08_transposed_broadcast_refuted.

(** ** C09 *)

(** The property as stated: same acceptance, same groups, same member order. *)
Definition C09_statement : Prop :=
  forall A B (tA tB : bool), part_ok A -> part_ok B -> p_root A = p_root B ->
  forall v,
  match create_reduction_partition_to A B tA tB v, create_broadcast_partition_to B A tB tA v with
  | Raise e, Raise e' => e = e'
  | Ok x, Ok y => x_send x = x_recv y /\ x_recv x = x_send y
  | _, _ => False
  end.

(** The same group up to the order of the members after the root. *)
Definition same_group (g h : option (list Z)) : Prop :=
  match g, h with
  | None, None => True
  | Some (r :: g), Some (r' :: h) => r = r' /\ Permutation g h
  | _, _ => False
  end.

(** What holds: same acceptance with the same error, same root and same members;
    the member order after the root agrees when no worker is in both partitions. *)
Definition C09_partial_statement : Prop :=
  forall A B (tA tB : bool), part_ok A -> part_ok B -> p_root A = p_root B ->
  forall v,
  match create_reduction_partition_to A B tA tB v, create_broadcast_partition_to B A tB tA v with
  | Raise e, Raise e' => e = e'
  | Ok x, Ok y =>
      same_group (x_send x) (x_recv y) /\ same_group (x_recv x) (x_send y) /\
      ((forall u, In u (p_ranks A) -> ~ In u (p_ranks B)) ->
         x_send x = x_recv y /\ x_recv x = x_send y)
  | _, _ => False
  end.

Lemma colour_group_perm U U' dc r c : NoDup U -> NoDup U' -> (forall u, In u U <-> In u U') ->
  same_group (Some (colour_group U dc r c)) (Some (colour_group U' dc r c)).
Proof.
  intros HN HN' H. unfold colour_group. simpl. split; auto.
  apply NoDup_Permutation; auto using NoDup_filter.
  intros u. rewrite !filter_In, H. tauto.
Qed.

Lemma colour_group_disjoint A B dc r c : 0 <= c -> (forall u, ~ In u A -> dc u = -1) ->
  (forall u, In u A -> ~ In u B) ->
  colour_group (group_union A B) dc r c = colour_group (group_union B A) dc r c.
Proof.
  intros Hc Hdc HD. unfold colour_group. f_equal. f_equal.
  assert (E1 : filter (fun v => negb (existsb (Z.eqb v) B)) A = A).
  { clear - HD. induction A as [|a A IH]; simpl; auto.
    destruct (existsb (Z.eqb a) B) eqn:E; simpl.
    - exfalso. apply existsb_exists in E as (x & Hx & E). breflect. subst.
      apply (HD x); simpl; auto.
    - f_equal. apply IH. intros. apply HD. now right. }
  assert (E2 : filter (fun u => dc u =? c) B = []).
  { clear E1. induction B as [|b B IH]; simpl; auto.
    destruct (Z.eqb_spec (dc b) c) as [E|E].
    - rewrite Hdc in E; [lia|]. intros I. apply (HD b I). now left.
    - apply IH. intros u Hu. intros C. apply (HD u Hu). now right. }
  assert (E3 : filter (fun u => dc u =? c) (filter (fun v => negb (existsb (Z.eqb v) A)) B) = []).
  { clear - E2. induction B as [|b B IH]; simpl in *; auto.
    destruct (dc b =? c) eqn:E; [discriminate|].
    destruct (negb (existsb (Z.eqb b) A)); simpl; rewrite ?E; auto. }
  unfold group_union. rewrite !filter_app, E1, E2, E3. now rewrite app_nil_r.
Qed.

Lemma C09_partial_proof : C09_partial_statement.
Proof.
  intros A B tA tB HA HB HR v.
  assert (HV : (In v (p_ranks B) \/ In v (p_ranks A)) \/ ~ In v (p_ranks A) /\ ~ In v (p_ranks B))
    by (destruct (in_dec Z.eq_dec v (p_ranks A)), (in_dec Z.eq_dec v (p_ranks B)); tauto).
  destruct HV as [HV|[IA IB]].
  2:{ rewrite bc_inactive by auto. unfold create_reduction_partition_to.
      apply is_active_false in IA, IB. rewrite IA, IB. simpl. auto. }
  destruct (bc_compatible_dec (flip tB (p_shape B)) (flip tA (p_shape A))) as [HC|HC].
  2:{ rewrite broadcast_rejects, reduction_rejects by (auto; tauto). reflexivity. }
  set (U := group_union (p_ranks B) (p_ranks A)).
  set (U' := group_union (p_ranks A) (p_ranks B)).
  assert (HU : forall u, In u U <-> In u (p_ranks B) \/ In u (p_ranks A)) by (intros; apply group_union_in).
  assert (HU' : forall u, In u U' <-> In u (p_ranks B) \/ In u (p_ranks A))
         by (intros; unfold U'; rewrite group_union_in; tauto).
  assert (HN : NoDup U) by (apply group_union_nodup; [apply HB|apply HA]).
  assert (HN' : NoDup U') by (apply group_union_nodup; [apply HA|apply HB]).
  assert (HUU : forall u, In u U' <-> In u U) by (intros; rewrite HU, HU'; tauto).
  destruct (broadcast_run B A tB tA HB HA (eq_sym HR) HC v) as (calls & _ & ->); [now apply HU|].
  destruct (reduction_run B A tB tA HB HA (eq_sym HR) HC v) as (calls' & _ & ->); [now apply HU'|].
  cbn [x_send x_recv]; fold U U'.
  assert (HS : same_group (option_map (incl_ranks U') (recv_of B A tB tA U' v))
                      (option_map (incl_ranks U) (recv_of B A tB tA U v)) /\
               ((forall u, In u (p_ranks A) -> ~ In u (p_ranks B)) ->
                 option_map (incl_ranks U') (recv_of B A tB tA U' v) =
                 option_map (incl_ranks U) (recv_of B A tB tA U v))).
  { destruct (in_dec Z.eq_dec v (p_ranks A)) as [I|I];
    [ destruct (recv_of_active B A tB tA HB HA HC U HN HU v I) as [_ (r & Hr & ->)];
      destruct (recv_of_active B A tB tA HB HA HC U' HN' HU' v I) as [_ (r' & Hr' & ->)];
      assert (0 <= dcol B A tB tA v) by (apply (dcol_bound B A tB tA HA v I));
      assert (r' = r) by (eapply root_of_unique; eauto; apply Hr'); subst r';
      split; [now apply colour_group_perm|];
      intros HD; f_equal; apply colour_group_disjoint; auto; intros; now apply dcol_neg
    | rewrite !recv_of_inactive by auto; split; simpl; auto ]. }
  assert (HT : same_group (option_map (incl_ranks U') (send_of B A tB tA U' v))
                      (option_map (incl_ranks U) (send_of B A tB tA U v)) /\
               ((forall u, In u (p_ranks A) -> ~ In u (p_ranks B)) ->
                 option_map (incl_ranks U') (send_of B A tB tA U' v) =
                 option_map (incl_ranks U) (send_of B A tB tA U v))).
  { destruct (in_dec Z.eq_dec v (p_ranks B)) as [I|I];
    [ destruct (send_of_active B A tB tA HB HC U HN HU v I) as [_ ->];
      destruct (send_of_active B A tB tA HB HC U' HN' HU' v I) as [_ ->];
      split; [now apply colour_group_perm|];
      intros HD; f_equal; apply colour_group_disjoint; auto;
      [now apply scol_nonneg|intros; now apply dcol_neg]
    | rewrite !send_of_inactive by auto; split; simpl; auto ]. }
  tauto.
Qed.

Theorem C09_reduction_mirrors_broadcast_partial : C09_partial_statement.
Proof. exact C09_partial_proof. Qed.

Definition ex9_A : part := mkpart 0 [0; 1; 2; 3; 4; 5] [3; 2].
Definition ex9_B : part := mkpart 0 [6; 4] [2].

(** Broadcasting from B to A creates the group [6; 4; 0; 2], reducing from A to B
    the group [6; 0; 2; 4]. *)
Theorem C09_member_order_refuted : ~ C09_statement.
Proof.
  intros H.
  assert (H1 : part_ok ex9_A) by (repeat split; try discriminate; repeat constructor; simpl; lia).
  assert (H2 : part_ok ex9_B) by (repeat split; try discriminate; repeat constructor; simpl; lia).
  specialize (H ex9_A ex9_B false false H1 H2 eq_refl 0). vm_compute in H. destruct H; discriminate.
Qed.

Example C09_example :
  part_ok ex9_A /\ part_ok ex9_B /\
  create_reduction_partition_to ex9_A ex9_B false false 4
    = Ok (mkcross (Some [6; 0; 2; 4]) (Some [4; 1; 3; 5]) [[4; 1; 3; 5]; [6; 0; 2; 4]]) /\
  create_broadcast_partition_to ex9_B ex9_A false false 4
    = Ok (mkcross (Some [4; 1; 3; 5]) (Some [6; 4; 0; 2]) [[0; 1; 2; 4]; [1; 3; 5; 6]]).
Proof.
  split; [|split; [|split]].
  - repeat split; try discriminate; repeat constructor; simpl; lia.
  - repeat split; try discriminate; repeat constructor; simpl; lia.
  - vm_compute. reflexivity.
  - vm_compute. reflexivity.
Qed.

Print Assumptions C09_reduction_mirrors_broadcast_partial.
Print Assumptions C09_member_order_refuted.

(** ** C11 *)

Definition C11_statement : Prop :=
  forall P axes, part_ok P ->
  Forall (fun a => 0 <= a < Z.of_nat (length (p_shape P))) axes ->
  (* every worker gets a group *)
  (forall v, In v (p_ranks P) -> exists Q,
     create_allreduction_partition P axes v = Ok (Some Q) /\
     p_root Q = p_root P /\ p_shape Q = reduced_shape axes (p_shape P) /\
     In v (p_ranks Q) /\ NoDup (p_ranks Q) /\
     Z.of_nat (length (p_ranks Q)) = zprod (reduced_shape axes (p_shape P)) /\
     (* all members compute the same group, in the same order *)
     (forall w, In w (p_ranks Q) ->
        In w (p_ranks P) /\ create_allreduction_partition P axes w = Ok (Some Q))) /\
  (* two workers share a group exactly when they agree on the kept axes *)
  (forall v w iv iw Qv Qw, worker_at P iv v -> worker_at P iw w ->
     create_allreduction_partition P axes v = Ok (Some Qv) ->
     create_allreduction_partition P axes w = Ok (Some Qw) ->
     (agree_off axes iv iw -> Qv = Qw) /\
     (~ agree_off axes iv iw -> forall u, In u (p_ranks Qv) -> ~ In u (p_ranks Qw))) /\
  (forall v, ~ In v (p_ranks P) -> create_allreduction_partition P axes v = Ok None) /\
  (* an axis beyond the partition's dimension is refused *)
  (forall v axes', In v (p_ranks P) ->
     (exists a, In a axes' /\ Z.of_nat (length (p_shape P)) <= a) ->
     create_allreduction_partition P axes' v = Raise ErrAxis).

Lemma agree_off_refl axes i : agree_off axes i i.
Proof. intros k _ _. reflexivity. Qed.

Lemma agree_off_sym axes i j : length i = length j -> agree_off axes i j -> agree_off axes j i.
Proof. intros HL H k Hk Hn. symmetry. apply H; auto. lia. Qed.

Lemma agree_off_trans axes i j l : length i = length j -> agree_off axes i j -> agree_off axes j l ->
  agree_off axes i l.
Proof. intros HL H H' k Hk Hn. rewrite H by auto. apply H'; auto. lia. Qed.

Lemma C11_proof : C11_statement.
Proof.
  intros P axes HP Hax0.
  assert (Hax : Forall (fun a => a < Z.of_nat (length (p_shape P))) axes)
    by (eapply Forall_impl; [|exact Hax0]; simpl; intros; lia).
  assert (Hlen : forall i v, worker_at P i v -> length i = length (p_shape P))
    by (intros i v [H _]; now apply valid_index_length).
  assert (Hsame : forall iv v iw w, worker_at P iv v -> worker_at P iw w -> agree_off axes iv iw ->
     ar_members P axes iv = ar_members P axes iw).
  { intros iv v iw w Hv Hw Hag. unfold ar_members. rewrite (assemble_filter_agree axes iv iw); auto.
    rewrite (Hlen _ _ Hv), (Hlen _ _ Hw). reflexivity. }
  split; [|split; [|split]].
  - intros v Hv. destruct (worker_at_exists P v HP Hv) as [iv Hiv].
    eexists. split; [eapply allreduction_run; eauto|]. cbn [p_root p_shape p_ranks].
    repeat split; auto.
    + eapply ar_members_in; eauto. exists iv. split; auto. apply agree_off_refl.
    + now apply ar_members_nodup.
    + unfold ar_members. rewrite map_length.
      apply allreduction_length; [apply pos_nonneg, HP|apply Hiv].
    + eapply ar_members_in in H; eauto. destruct H as (iw & Hw & _). eapply worker_at_In; eauto.
    + eapply ar_members_in in H; eauto. destruct H as (iw & Hw & Hag).
      rewrite (allreduction_run P axes iw w) by auto. do 3 f_equal. symmetry. eapply Hsame; eauto.
  - intros v w iv iw Qv Qw Hv Hw Ev Ew.
    rewrite (allreduction_run P axes iv v) in Ev by auto. inv Ev.
    rewrite (allreduction_run P axes iw w) in Ew by auto. inv Ew. cbn [p_ranks]. split.
    + intros Hag. f_equal. eapply Hsame; eauto.
    + intros Hna u Hu Hu'.
      eapply ar_members_in in Hu; eauto. eapply ar_members_in in Hu'; eauto.
      destruct Hu as (i & Hi & A1). destruct Hu' as (j & Hj & A2).
      assert (j = i) by (eapply worker_at_fun; eauto). subst j. apply Hna.
      apply agree_off_trans with (j := i); auto.
      * rewrite (Hlen _ _ Hv), (Hlen _ _ Hi). reflexivity.
      * apply agree_off_sym; auto. rewrite (Hlen _ _ Hw), (Hlen _ _ Hi). reflexivity.
  - intros v Hv. unfold create_allreduction_partition. apply index_in_none in Hv. now rewrite Hv.
  - intros v axes' Hv (a & Ha & Hge). unfold create_allreduction_partition.
    destruct (worker_at_exists P v HP Hv) as [iv Hiv]. apply index_in_spec in Hiv; auto. rewrite Hiv.
    replace (existsb _ axes') with true; auto. symmetry. apply existsb_exists. exists a. split; auto.
    now apply Z.leb_le.
Qed.

Theorem C11_allreduction_groups : C11_statement.
Proof. exact C11_proof. Qed.

Example C11_example :
  let P := mkpart 0 [10; 11; 12; 13; 14; 15; 16; 17; 18; 19; 20; 21] [2; 3; 2] in
  part_ok P /\ Forall (fun a => 0 <= a < 3) [0; 2] /\
  create_allreduction_partition P [0; 2] 14
    = Ok (Some (mkpart 0 [14; 15; 20; 21] [2; 1; 2])) /\
  create_allreduction_partition P [0; 2] 21
    = Ok (Some (mkpart 0 [14; 15; 20; 21] [2; 1; 2])) /\
  create_allreduction_partition P [0; 3] 21 = Raise ErrAxis.
Proof.
  cbv zeta. split; [|split; [|split; [|split]]]; try reflexivity.
  - repeat split; try discriminate; repeat constructor; simpl; lia.
  - repeat constructor; lia.
Qed.

Print Assumptions C11_allreduction_groups.

(** ** C12 *)

Definition C12_statement : Prop :=
  forall P Q, NoDup (p_ranks P) -> NoDup (p_ranks Q) ->
  (p_root P <> p_root Q -> create_partition_union P Q = Raise ErrRoot) /\
  (p_root P = p_root Q -> exists U rest,
     create_partition_union P Q = Ok U /\
     NoDup U /\ (forall v, In v U <-> In v (p_ranks P) \/ In v (p_ranks Q)) /\
     (* first the workers of P in order, then others of Q in Q's order *)
     U = p_ranks P ++ rest /\
     (forall i j a b, (i < j)%nat -> nth_error rest i = Some a -> nth_error rest j = Some b ->
        exists i' j', (i' < j')%nat /\ nth_error (p_ranks Q) i' = Some a /\
                      nth_error (p_ranks Q) j' = Some b) /\
     (* lookup inverts the numbering *)
     (forall v r, rank_in U v = Some r <-> 0 <= r /\ nth_error U (Z.to_nat r) = Some v) /\
     (forall v, rank_in U v = None <-> ~ In v (p_ranks P) /\ ~ In v (p_ranks Q)) /\
     (* data broadcast through the union comes from the requested worker *)
     (forall (T : Type) (data : Z -> T) root u,
        0 <= root -> nth_error (p_ranks Q) (Z.to_nat root) = Some u ->
        broadcast_data U (p_ranks Q) data root = Ok (data u)) /\
     (forall (T : Type) (data : Z -> T) root, Z.of_nat (length (p_ranks Q)) <= root ->
        broadcast_data U (p_ranks Q) data root = Raise ErrNoData)).

Lemma filter_order {A} (p : A -> bool) l i j a b : (i < j)%nat ->
  nth_error (filter p l) i = Some a -> nth_error (filter p l) j = Some b ->
  exists i' j', (i' < j')%nat /\ nth_error l i' = Some a /\ nth_error l j' = Some b.
Proof.
  revert i j. induction l as [|x l IH]; intros i j Hij Ha Hb.
  - destruct i; discriminate.
  - simpl in Ha, Hb. destruct (p x).
    + destruct j as [|j]; [lia|]. simpl in Hb. destruct i as [|i].
      * simpl in Ha. inv Ha. exists 0%nat.
        assert (I : In b l) by (apply nth_error_In in Hb; now apply filter_In in Hb).
        apply In_nth_error in I as [j' Hj']. exists (S j'). split; [lia|]. split; auto.
      * simpl in Ha. destruct (IH i j ltac:(lia) Ha Hb) as (i' & j' & H1 & H2 & H3).
        exists (S i'), (S j'). split; [lia|]. auto.
    + destruct (IH i j Hij Ha Hb) as (i' & j' & H1 & H2 & H3).
      exists (S i'), (S j'). split; [lia|]. auto.
Qed.

Lemma C12_proof : C12_statement.
Proof.
  intros P Q HP HQ. unfold create_partition_union. split.
  - intros H. destruct (Z.eqb_spec (p_root P) (p_root Q)); congruence.
  - intros ->. rewrite Z.eqb_refl. eexists. eexists.
    split; [reflexivity|]. split; [now apply group_union_nodup|].
    split; [intros; apply group_union_in|].
    split; [reflexivity|]. split; [intros i j a b; apply filter_order|].
    split; [intros; apply rank_in_spec; now apply group_union_nodup|].
    split.
    { intros v. rewrite rank_in_none. change (p_ranks P ++ _) with (group_union (p_ranks P) (p_ranks Q)).
      rewrite group_union_in. tauto. }
    split.
    { intros T data root u H0 Hu. apply broadcast_data_spec; auto.
      apply group_union_in. right. eapply nth_error_In; eauto. }
    intros T data root Hr. unfold broadcast_data.
    destruct (where_eq _ _) as [|k l] eqn:E; auto. exfalso.
    assert (Hk : In k (where_eq root (map (fun u => match rank_in (p_ranks Q) u with Some r => r | None => -1 end)
                 (group_union (p_ranks P) (p_ranks Q))))) by (rewrite E; now left).
    apply where_eq_in in Hk as [_ Hk]. rewrite nth_error_map in Hk.
    destruct (nth_error (group_union _ _) (Z.to_nat k)) as [x|]; [|discriminate].
    simpl in Hk. destruct (rank_in (p_ranks Q) x) as [r|] eqn:Er; inv Hk.
    + apply rank_in_some in Er as [H0 Er].
      assert ((Z.to_nat root < length (p_ranks Q))%nat) by (apply nth_error_Some; congruence). lia.
    + lia.
Qed.

Theorem C12_union_order : C12_statement.
Proof. exact C12_proof. Qed.

Example C12_example :
  let P := mkpart 3 [5; 2; 7] [3] in
  let Q := mkpart 3 [7; 9; 5; 1] [2; 2] in
  NoDup (p_ranks P) /\ NoDup (p_ranks Q) /\
  create_partition_union P Q = Ok [5; 2; 7; 9; 1] /\
  create_partition_union P (mkpart 4 [7; 9] [2]) = Raise ErrRoot /\
  broadcast_data [5; 2; 7; 9; 1] (p_ranks Q) (fun v => 100 + v) 1 = Ok 109.
Proof. cbv zeta. repeat split; try reflexivity; repeat constructor; simpl; lia. Qed.

Print Assumptions C12_union_order.

(** ** C13 *)

Definition C13_statement : Prop :=
  forall P, part_ok P ->
  (forall v r, rank_in (p_ranks P) v = Some r -> exists l,
     neighbor_ranks P (is_active (p_ranks P) v) r = Ok l /\ length l = length (p_shape P)) /\
  (forall v, rank_in (p_ranks P) v = None -> forall r,
     neighbor_ranks P (is_active (p_ranks P) v) r = Raise ErrInactive) /\
  forall a b ia ib ra rb la lb k,
  worker_at P ia a -> worker_at P ib b ->
  rank_in (p_ranks P) a = Some ra -> rank_in (p_ranks P) b = Some rb ->
  neighbor_ranks P true ra = Ok la -> neighbor_ranks P true rb = Ok lb ->
  (k < length (p_shape P))%nat ->
  (* b is the right neighbour of a iff a is the left neighbour of b *)
  (snd (nth k la (None, None)) = Some rb <-> fst (nth k lb (None, None)) = Some ra) /\
  (* and then the index differs by one, in this dimension only *)
  (snd (nth k la (None, None)) = Some rb <->
     nth k ib 0 = nth k ia 0 + 1 /\
     forall j, (j < length (p_shape P))%nat -> j <> k -> nth j ib 0 = nth j ia 0) /\
  (* missing neighbours exactly at the ends *)
  (fst (nth k la (None, None)) = None <-> nth k ia 0 = 0) /\
  (snd (nth k la (None, None)) = None <-> nth k ia 0 = nth k (p_shape P) 0 - 1) /\
  (* a neighbour rank is the rank of a worker *)
  (forall r, snd (nth k la (None, None)) = Some r \/ fst (nth k la (None, None)) = Some r ->
     exists w, In w (p_ranks P) /\ rank_in (p_ranks P) w = Some r).

Lemma rank_in_row_major P idx v : part_ok P -> worker_at P idx v ->
  rank_in (p_ranks P) v = Some (row_major (p_shape P) idx).
Proof.
  intros HP [Hv Hn]. apply rank_in_spec; [apply HP|]. pose proof (row_major_bound _ _ Hv). split; auto. lia.
Qed.

Lemma upd_right P ia ib k : valid_index (p_shape P) ia -> valid_index (p_shape P) ib ->
  (k < length (p_shape P))%nat -> forall x,
  (upd k x ia = ib <-> nth k ib 0 = x /\
     forall j, (j < length (p_shape P))%nat -> j <> k -> nth j ib 0 = nth j ia 0).
Proof.
  intros Ha Hb Hk x. apply valid_index_length in Ha, Hb. split.
  - intros <-. split; [apply upd_nth_eq; lia|]. intros j Hj Hn. apply upd_nth_neq; auto.
  - intros [H1 H2]. apply list_eq_nth with (d := 0); [rewrite upd_length; lia|].
    intros j Hj. rewrite upd_length in Hj. destruct (Nat.eq_dec k j) as [<-|N].
    + rewrite upd_nth_eq by lia. auto.
    + rewrite upd_nth_neq by auto. symmetry. apply H2; auto. lia.
Qed.

Lemma C13_proof : C13_statement.
Proof.
  intros P HP. split; [|split].
  - intros v r Hr.
    assert (I : In v (p_ranks P)) by (apply rank_in_some in Hr as [_ Hr]; eapply nth_error_In; eauto).
    destruct (worker_at_exists P v HP I) as [idx Hi].
    pose proof (rank_in_row_major P idx v HP Hi) as E. rewrite E in Hr. inv Hr.
    apply is_active_spec in I. rewrite I.
    eexists. split; [eapply neighbor_ranks_spec; eauto|]. now rewrite map_length, seq_length.
  - intros v Hv r. apply rank_in_none in Hv. apply is_active_false in Hv. rewrite Hv. reflexivity.
  - intros a b ia ib ra rb la lb k Ha Hb Ra Rb La Lb Hk.
    rewrite (rank_in_row_major P ia a HP Ha) in Ra. inv Ra.
    rewrite (rank_in_row_major P ib b HP Hb) in Rb. inv Rb.
    rewrite (neighbor_ranks_spec P ia a HP Ha) in La. inv La.
    rewrite (neighbor_ranks_spec P ib b HP Hb) in Lb. inv Lb.
    assert (HN : forall idx, nth k (map (fun i =>
        (if nth i idx 0 =? 0 then None
         else Some (row_major (p_shape P) (upd i (nth i idx 0 - 1) idx)),
         if nth i idx 0 =? nth i (p_shape P) 0 - 1 then None
         else Some (row_major (p_shape P) (upd i (nth i idx 0 + 1) idx))))
      (seq 0 (length (p_shape P)))) (None, None) =
      (if nth k idx 0 =? 0 then None
         else Some (row_major (p_shape P) (upd k (nth k idx 0 - 1) idx)),
         if nth k idx 0 =? nth k (p_shape P) 0 - 1 then None
         else Some (row_major (p_shape P) (upd k (nth k idx 0 + 1) idx)))).
    { intros idx. apply nth_error_nth. erewrite map_nth_error; [|now apply nth_error_seq]. reflexivity. }
    rewrite !HN. cbn [fst snd]. clear HN.
    pose proof (proj1 Ha) as Va. pose proof (proj1 Hb) as Vb.
    pose proof Va as Ba. apply valid_index_nth in Ba as [La Ba]. specialize (Ba k Hk).
    pose proof Vb as Bb. apply valid_index_nth in Bb as [Lb Bb]. specialize (Bb k Hk).
    assert (HRight : (if nth k ia 0 =? nth k (p_shape P) 0 - 1 then None
        else Some (row_major (p_shape P) (upd k (nth k ia 0 + 1) ia))) = Some (row_major (p_shape P) ib) <->
        nth k ib 0 = nth k ia 0 + 1 /\
        forall j, (j < length (p_shape P))%nat -> j <> k -> nth j ib 0 = nth j ia 0).
    { rewrite <- (upd_right P ia ib k Va Vb Hk).
      destruct (Z.eqb_spec (nth k ia 0) (nth k (p_shape P) 0 - 1)) as [E|E].
      - split; [discriminate|]. intros <-. rewrite upd_nth_eq in Bb by lia. lia.
      - split.
        + intros H. inv H. eapply row_major_inj; eauto. apply valid_index_upd; auto. lia.
        + now intros ->. }
    assert (HLeft : (if nth k ib 0 =? 0 then None
        else Some (row_major (p_shape P) (upd k (nth k ib 0 - 1) ib))) = Some (row_major (p_shape P) ia) <->
        nth k ia 0 = nth k ib 0 - 1 /\
        forall j, (j < length (p_shape P))%nat -> j <> k -> nth j ia 0 = nth j ib 0).
    { rewrite <- (upd_right P ib ia k Vb Va Hk).
      destruct (Z.eqb_spec (nth k ib 0) 0) as [E|E].
      - split; [discriminate|]. intros <-. rewrite upd_nth_eq in Ba by lia. lia.
      - split.
        + intros H. inv H. eapply row_major_inj; eauto. apply valid_index_upd; auto. lia.
        + now intros ->. }
    split; [|split; [|split; [|split]]].
    + rewrite HRight, HLeft. split; intros [E1 E2]; (split; [lia|intros; symmetry; auto]).
    + exact HRight.
    + destruct (Z.eqb_spec (nth k ia 0) 0); split; auto; congruence.
    + destruct (Z.eqb_spec (nth k ia 0) (nth k (p_shape P) 0 - 1)); split; auto; congruence.
    + assert (G : forall i, valid_index (p_shape P) i ->
          exists w, In w (p_ranks P) /\ rank_in (p_ranks P) w = Some (row_major (p_shape P) i)).
      { intros i Vi. destruct (worker_exists P i HP Vi) as [w Hw]. exists w.
        split; [eapply worker_at_In; eauto|now apply rank_in_row_major]. }
      intros r [H|H].
      * destruct (Z.eqb_spec (nth k ia 0) (nth k (p_shape P) 0 - 1)); [discriminate|]. inv H.
        apply G, valid_index_upd; auto. lia.
      * destruct (Z.eqb_spec (nth k ia 0) 0); [discriminate|]. inv H.
        apply G, valid_index_upd; auto. lia.
Qed.

Theorem C13_neighbour_ranks : C13_statement.
Proof. exact C13_proof. Qed.

Example C13_example :
  let P := mkpart 0 [10; 11; 12; 13; 14; 15] [2; 3] in
  part_ok P /\
  neighbor_ranks P true 4 = Ok [(Some 1, None); (Some 3, Some 5)] /\
  neighbor_ranks P true 5 = Ok [(Some 2, None); (Some 4, None)].
Proof.
  cbv zeta. split; [|split; reflexivity].
  repeat split; try discriminate; repeat constructor; simpl; lia.
Qed.

Print Assumptions C13_neighbour_ranks.

(** * C04, of a partition's workers: rank and index as the communicator gives them *)
Definition C04_coordinates_statement : Prop :=
  forall P : part, part_ok P ->
  (* the worker of rank r has the r-th of the enumerated indices, and asking for the
     rank of this index gives r *)
  (forall v r, nth_error (p_ranks P) r = Some v -> exists idx,
     rank_in (p_ranks P) v = Some (Z.of_nat r) /\ index_in P v = Some idx /\
     nth_error (range_index (p_shape P)) r = Some idx /\ cart_rank (p_shape P) idx = Ok (Z.of_nat r)) /\
  (* every valid index is that of exactly one worker *)
  (forall idx, valid_index (p_shape P) idx -> exists! v, In v (p_ranks P) /\ index_in P v = Some idx) /\
  (* the others have neither *)
  (forall v, ~ In v (p_ranks P) -> rank_in (p_ranks P) v = None /\ index_in P v = None).

Lemma C04_coordinates_proof : C04_coordinates_statement.
Proof.
  intros P HP. assert (HP' := HP). destruct HP' as (HN & _ & Hp & HL). split; [|split].
  - intros v r Hr. assert (Hl : (r < length (p_ranks P))%nat) by (apply nth_error_Some; congruence).
    assert (E : rank_in (p_ranks P) v = Some (Z.of_nat r)) by (apply rank_in_spec; auto; rewrite Nat2Z.id; split; auto; lia).
    destruct (cart_coords_spec (p_shape P) (Z.of_nat r) Hp) as [H1 H2]; [lia|].
    exists (cart_coords (p_shape P) (Z.of_nat r)). split; [exact E|]. unfold index_in. rewrite E. split; [reflexivity|].
    split; [pose proof (range_index_nth_row_major _ _ H1) as Q; rewrite H2, Nat2Z.id in Q; exact Q|].
    unfold cart_rank. rewrite cartesian_index_c_row_major, H2 by (now apply valid_index_length).
    replace (forallb _ _) with true; auto. symmetry. apply forallb_forall. intros [n i] Hni.
    clear - H1 Hni. unfold valid_index in H1. induction H1 as [|n' i' s t Hb H1 IH]; [destruct Hni|].
    destruct Hni as [E|Hni]; auto. inv E. cbn [fst snd]. apply andb_true_iff. rewrite Z.leb_le, Z.ltb_lt. lia.
  - intros idx Hi. destruct (worker_exists P idx HP Hi) as [v Hv]. exists v. split.
    + split; [eapply worker_at_In; eauto|]. now apply index_in_spec.
    + intros u [_ Hu]. apply index_in_spec in Hu; auto. destruct Hu as [_ Hu], Hv as [_ Hv]. congruence.
  - intros v Hv. split; [now apply rank_in_none|now apply index_in_none].
Qed.

Theorem C04_coordinates : C04_coordinates_statement.
Proof. exact C04_coordinates_proof. Qed.

Example C04_coordinates_example :
  let P := mkpart 0 [20; 13; 12; 31; 14; 15] [2; 3] in
  part_ok P /\ nth_error (p_ranks P) 5 = Some 15 /\ index_in P 15 = Some [1; 2] /\ index_in P 13 = Some [0; 1] /\
  nth_error (range_index (p_shape P)) 1 = Some [0; 1] /\ cart_rank (p_shape P) [1; 2] = Ok 5 /\ index_in P 11 = None.
Proof. cbv zeta. split; [repeat split; try discriminate; repeat constructor; simpl; lia|]. repeat split. Qed.

Print Assumptions C04_coordinates.
