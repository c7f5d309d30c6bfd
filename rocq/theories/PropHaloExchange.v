(** Halo exchange: C25 - C27. *)

From Coq Require Import RelationClasses.
From Verif Require Import Prelude SpecIndex SpecLayout SpecPartition SpecHalo ModelSlicing ModelDecomposition
  ModelPartition ProofSlicing ProofDecomposition ProofPartition PropPartition Ring Tensor Blocks P2P Rounds
  ModelRepartition ProofRepartition ProofTransfer PropRepartition ModelHaloMixin ProofHaloMixin PropHaloMixin
  ModelHaloExchange ProofHaloLinks ProofHaloZones.

(** * Vocabulary *)

(** The tensors, laid out by [L] over [P], are extended by the halos [H]; every
    worker of [P] has been given the shape of its extended block and its part of
    the plan. *)
Definition planned (P : part) (L : layout) (H : halos) (shape : Z -> list Z) (recv send : Z -> list (Z * Z)) : Prop :=
  forall idx v, worker_at P idx v ->
    shape v = padded_shape L H idx /\ recv v = recv_plan H idx /\ send v = send_plan H idx.

Definition halo_given (world : list Z) (P : part) (L : layout) (H : halos) : Prop :=
  NoDup world /\ (forall v, In v (p_ranks P) -> In v world) /\
  part_ok P /\ layout_ok L /\ layout_workers L = p_shape P /\ halos_ok L H.

(** The plan that a convolution or pooling layer computes: [compute_exchange_info]
    for a window [w] with at least one output in every dimension. *)
Definition layer_plan (world : list Z) (P : part) (L : layout) (w : window) (shapes : option warray) (ny : list Z)
    (shape : Z -> list Z) (recv send : Z -> list (Z * Z)) : Prop :=
  NoDup world /\ (forall v, In v (p_ranks P) -> In v world) /\
  part_ok P /\ layout_workers L = p_shape P /\ halo_setting L w shapes ny /\
  forall idx v, worker_at P idx v ->
    exists info, compute_exchange_info (layout_shape L) w true (p_shape P) idx shapes = Ok (Some info) /\
      recv v = e_recv info /\ send v = e_send info /\
      shape v = vadd (vadd (map fst (e_halo info)) (block_shape L idx)) (map snd (e_halo info)).

(** The arguments have the shape the layer was set up for. *)
Definition call_ok {R : CRing} (P : part) (L : layout) (H : halos) (c : @call R) : Prop :=
  let x := match c with HForward x => x | HBackward dy => dy end in
  forall idx v, worker_at P idx v -> tshape (x v) = padded_shape L H idx.

(** What a worker returned last. *)
Definition halo_result {R : CRing} (g : @gst (@hst R) (tensor R)) (v : Z) : tensor R :=
  last (h_hist (wdata (gw g v))) (mkt [] (fun _ => rzero)).

(** * Proofs for all three *)

Section Given.
  Context {R : CRing}.
  Variables (world : list Z) (P : part) (L : layout) (H : halos).
  Variables (shape : Z -> list Z) (recv send : Z -> list (Z * Z)).
  Hypothesis HG : halo_given world P L H.
  Hypothesis HPl : planned P L H shape recv send.

  Notation history := (history_rounds (R := R) P shape recv send).
  Notation fround := (forward_round (R := R) P shape recv send).
  Notation bround := (backward_round (R := R) P shape recv send).

  Lemma given_shape idx v : worker_at P idx v -> shape v = padded_shape L H idx.
  Proof. intros Hw. apply (HPl idx v Hw). Qed.
  Lemma given_recv idx v : worker_at P idx v -> recv v = recv_plan H idx.
  Proof. intros Hw. apply (HPl idx v Hw). Qed.
  Lemma given_send idx v : worker_at P idx v -> send v = send_plan H idx.
  Proof. intros Hw. apply (HPl idx v Hw). Qed.

  Lemma dim_eq : length (p_shape P) = length L.
  Proof. destruct HG as (_ & _ & _ & _ & HW & _). rewrite <- HW. apply layout_workers_length. Qed.

  Lemma halo_round_ok rd i : rd = fround \/ rd = bround -> (i < length L)%nat -> round_ok world eqH steq (rd i).
  Proof.
    intros Hrd Hi. destruct HG as (G1 & G2 & G3 & G4 & G5 & G6).
    destruct Hrd as [-> | ->];
      [apply (forward_ok P L H)|apply (backward_ok P L H)]; auto using given_shape, given_recv, given_send.
  Qed.

  Lemma load_ok (x : Z -> tensor R) : round_ok world eqH steq (load_round x).
  Proof.
    apply (round_ok_local world eqH steq (fun v => [fun s => set_t (x v) s])).
    intros w g s s' [<-|[]] []. constructor; simpl; auto. reflexivity.
  Qed.

  Lemma store_ok : round_ok world eqH steq (store_round (R := R)).
  Proof.
    apply (round_ok_local world eqH steq (fun v => [fun s => mkhst (h_t s) (h_l s) (h_r s) (h_hist s ++ [h_t s])])).
    intros w g s s' [<-|[]] []. constructor; simpl; auto.
    apply Forall2_app; auto.
  Qed.

  Lemma history_ok cs : Forall (round_ok world eqH steq) (history cs).
  Proof.
    induction cs as [|c cs IH]; [constructor|]. cbn [history_rounds flat_map]. apply Forall_app. split; auto.
    assert (M : forall rd l, rd = fround \/ rd = bround -> Forall (fun i => (i < length L)%nat) l ->
      Forall (round_ok world eqH steq) (map rd l)).
    { intros rd l Hrd Hl. apply Forall_forall. intros r Hr. apply in_map_iff in Hr as (i & <- & Hi).
      apply halo_round_ok; auto. rewrite Forall_forall in Hl. auto. }
    assert (S0 : Forall (fun i => (i < length L)%nat) (seq 0 (length (p_shape P)))).
    { apply Forall_forall. intros i Hi. apply in_seq in Hi. rewrite dim_eq in Hi. lia. }
    destruct c as [x|dy]; cbn [call_rounds app]; constructor; auto using load_ok.
    - apply Forall_app. split; [auto|]. constructor; [apply store_ok|constructor].
    - apply Forall_app. split; [|constructor; [apply store_ok|constructor]].
      apply M; auto. apply Forall_forall. intros i Hi. apply in_rev in Hi. rewrite Forall_forall in S0. auto.
  Qed.

  Lemma halo_async cs init : async_ok world eqH (history cs) init.
  Proof.
    destruct HG as (G1 & _). apply (rounds_async world eqH steq); auto using history_ok.
    - apply eqH_equiv.
    - exact _.
  Qed.

  Lemma history_last pre c init :
    sync_rounds (history (pre ++ [c])) init =
    sync_rounds (call_rounds P shape recv send c) (sync_rounds (history pre) init).
  Proof.
    unfold history_rounds. rewrite flat_map_app. cbn [flat_map]. rewrite app_nil_r. apply sync_rounds_app.
  Qed.

  (** The result of a call, in lock-step. *)
  Definition loaded (x : Z -> tensor R) (S0 : Z -> hst) : Z -> hst := sync1 (load_round x) S0.

  Lemma loaded_t x S0 v : h_t (loaded x S0 v) = x v.
  Proof. reflexivity. Qed.

  Lemma call_result (l : list (@round (@hst R) (tensor R))) x S0 v :
    last (h_hist (sync_rounds ([load_round x] ++ l ++ [store_round]) S0 v)) (mkt [] (fun _ => rzero)) =
    h_t (sync_rounds l (loaded x S0) v).
  Proof.
    rewrite (sync_rounds_app [load_round x]), sync_rounds_app. unfold sync_rounds at 1. cbn [fold_left]. unfold sync1 at 1.
    cbn [store_round acts_run unpack_all h_hist]. rewrite last_last. reflexivity.
  Qed.

  Lemma last_steq (a b : list (tensor R)) d : Forall2 steq a b -> steq (last a d) (last b d).
  Proof.
    intros F0. induction F0 as [|x y a b Hx F0 IH]; [reflexivity|]. destruct F0; auto.
  Qed.

  Lemma ends_result (l : list (@round (@hst R) (tensor R))) x pre c init eager g v : In v world ->
    call_rounds P shape recv send c = [load_round x] ++ l ++ [store_round] ->
    ends world (history (pre ++ [c])) init eager g ->
    exists S0, steq (halo_result g v) (h_t (sync_rounds l (loaded x S0) v)) /\
      S0 = sync_rounds (history pre) init.
  Proof.
    intros Hv Hc (n & Hr & Hd). eexists. split; [|reflexivity].
    pose proof (ao_result _ _ _ _ (halo_async (pre ++ [c]) init) _ _ _ v Hr Hd Hv) as E.
    rewrite history_last in E. destruct E as [_ _ _ E]. apply last_steq with (d := mkt [] (fun _ => rzero)) in E.
    rewrite Hc in E. rewrite call_result in E. exact E.
  Qed.

  Lemma dims_ok : Forall (fun i => (i < length L)%nat) (seq 0 (length (p_shape P))).
  Proof. apply Forall_forall. intros i Hi. apply in_seq in Hi. rewrite dim_eq in Hi. lia. Qed.

  Lemma dims_rev_ok : Forall (fun i => (i < length L)%nat) (rev (seq 0 (length (p_shape P)))).
  Proof. apply Forall_rev, dims_ok. Qed.

  (** Shapes, and workers outside the partition. *)
  Lemma keep rd l (S0 : Z -> hst) : rd = fround \/ rd = bround -> Forall (fun i => (i < length L)%nat) l ->
    (forall idx v, worker_at P idx v -> tshape (h_t (sync_rounds (map rd l) S0 v)) = tshape (h_t (S0 v))) /\
    (forall v, ~ In v (p_ranks P) -> sync_rounds (map rd l) S0 v = S0 v).
  Proof.
    intros Hrd Hl. destruct HG as (G1 & G2 & G3 & G4 & G5 & G6).
    destruct (rounds_keep P L H G3 G4 G5 G6 shape recv send given_shape given_recv given_send world G2 rd l S0 Hrd Hl)
      as [K1 K2].
    split; auto. intros idx v Hw. rewrite <- (worker_wk _ _ _ Hw). apply K1. apply Hw.
  Qed.
End Given.

(** * C25 *)

(** The point of the global tensor that local point [q] of the extended block
    stands for. *)
Definition global_point (L : layout) (H : halos) (idx q : list Z) : list Z :=
  vadd (vsub (block_lo L idx) (left_halo H idx)) q.

Definition C25_statement : Prop :=
  forall (R : CRing) (world : list Z) (P : part) (L : layout) (H : halos)
    (shape : Z -> list Z) (recv send : Z -> list (Z * Z)) (G : tensor R)
    (pre : list call) (x : Z -> tensor R) (init : Z -> hst) eager g,
    halo_given world P L H -> halos_narrow L H -> planned P L H shape recv send ->
    Forall (call_ok P L H) (pre ++ [HForward x]) ->
    (* the bulk of the argument is the worker's block of G *)
    (forall idx v p, worker_at P idx v -> valid_index (block_shape L idx) p ->
       tat (x v) (vadd (left_halo H idx) p) = tat G (vadd (block_lo L idx) p)) ->
    ends world (history_rounds P shape recv send (pre ++ [HForward x])) init eager g ->
    (forall idx v, worker_at P idx v ->
       tshape (halo_result g v) = padded_shape L H idx /\
       (forall q, valid_index (padded_shape L H idx) q ->
          valid_index (layout_shape L) (global_point L H idx q) /\
          tat (halo_result g v) q = tat G (global_point L H idx q)) /\
       (forall p, valid_index (block_shape L idx) p ->
          tat (halo_result g v) (vadd (left_halo H idx) p) = tat (x v) (vadd (left_halo H idx) p))) /\
    (forall v, In v world -> ~ In v (p_ranks P) -> teq (halo_result g v) (x v)).

Lemma narrow_fits L H : halos_ok L H -> halos_narrow L H -> halos_fit L H.
Proof.
  intros Hok HN. apply Forall2_nth with (da := []) (db := []).
  apply Forall2_nth with (da := []) (db := []) in HN as [E HN]. split; auto.
  apply Forall2_nth with (da := []) (db := []) in Hok as [_ Hok].
  intros j Hj i Hi Hi'. specialize (HN j Hj i Hi Hi'). destruct (Hok j Hj) as (_ & F & _).
  assert (N : forall y, 0 <= fst (halo_at (nth j H []) y) /\ 0 <= snd (halo_at (nth j H []) y)).
  { intros y. unfold halo_at. destruct (nth_in_or_default (Z.to_nat y) (nth j H []) (0, 0)) as [Hin| ->]; [|simpl; lia].
    rewrite Forall_forall in F. now apply F. }
  pose proof (N i). pose proof (N (i + 1)). lia.
Qed.

(** A point of the block is a point of the extended block. *)
Lemma bulk_point L H idx p : halos_ok L H -> length idx = length L -> valid_index (block_shape L idx) p ->
  valid_index (padded_shape L H idx) (vadd (left_halo H idx) p) /\
  global_point L H idx (vadd (left_halo H idx) p) = vadd (block_lo L idx) p.
Proof.
  intros HH Hl Hp. pose proof (valid_index_length _ _ Hp) as Hpl. rewrite block_shape_length in Hpl by auto.
  pose proof (H_length L H HH) as HHl.
  assert (El : length (left_halo H idx) = length L).
  { unfold left_halo, recv_plan. rewrite map_length, map2_length; rewrite HHl; auto. }
  assert (Eb : length (block_lo L idx) = length L) by (now apply block_lo_length).
  assert (N : forall j, (j < length L)%nat -> nth j (left_halo H idx) 0 = hl H j (nth j idx 0)).
  { intros j Hj. change (nth j (left_halo H idx) 0) with (nth j (map fst (recv_plan H idx)) (fst (0, 0))).
    rewrite map_nth, recv_plan_nth by (rewrite HHl; auto). reflexivity. }
  split.
  - apply valid_index_nth. unfold vadd. rewrite map2_length by lia.
    rewrite padded_length by auto. split; [lia|]. intros j Hj.
    rewrite padded_nth by auto.
    rewrite map2_nth with (da := 0) (db := 0) by lia. rewrite N by auto.
    apply valid_index_nth in Hp as [_ Hp]. rewrite block_shape_length in Hp by auto. specialize (Hp j Hj).
    rewrite block_shape_nth in Hp by auto. unfold ext.
    pose proof (hl_nonneg L H HH j (nth j idx 0) Hj). pose proof (hr_nonneg L H HH j (nth j idx 0) Hj). lia.
  - unfold global_point, vadd, vsub. apply list_eq_nth with (d := 0).
    + rewrite !map2_length; rewrite ?map2_length; lia.
    + intros j Hj. rewrite !map2_length in Hj by (rewrite ?map2_length; lia).
      rewrite !map2_nth with (da := 0) (db := 0) by (rewrite ?map2_length; lia). lia.
Qed.

Lemma C25_proof : C25_statement.
Proof.
  intros R world P L H shape recv send G pre x init eager g HG HN HP Hc Hx He.
  pose proof HG as (G1 & G2 & G3 & G4 & G5 & G6).
  pose proof (given_shape P L H shape recv send HP) as Q1.
  pose proof (given_recv P L H shape recv send HP) as Q2.
  pose proof (given_send P L H shape recv send HP) as Q3.
  pose proof (dim_eq world P L H HG) as Ed.
  assert (Hcx : forall idx v, worker_at P idx v -> tshape (x v) = padded_shape L H idx).
  { apply Forall_app in Hc as [_ Hc]. inv Hc. auto. }
  assert (HR : forall v, In v world -> exists S0,
    steq (halo_result g v)
      (h_t (sync_rounds (map (forward_round P shape recv send) (seq 0 (length (p_shape P)))) (loaded x S0) v)) /\
    S0 = sync_rounds (history_rounds P shape recv send pre) init).
  { intros v Hv. eapply (ends_result world P L H shape recv send HG HP); eauto. reflexivity. }
  assert (HK := fun S0 => keep (R := R) world P L H shape recv send HG HP (forward_round P shape recv send)
    (seq 0 (length (p_shape P))) S0 (or_introl eq_refl) (dims_ok world P L H HG)).
  split.
  - intros idx v Hw. pose proof (proj1 Hw) as Hv. pose proof (worker_wk _ _ _ Hw) as Ewk.
    assert (Hin : In v world) by (apply G2; eapply worker_at_In; eauto).
    assert (Hl : length idx = length L) by (apply valid_index_length in Hv; lia).
    destruct (HR v Hin) as (S0 & [ER1 ER2] & ES0).
    assert (HQ : forall q, valid_index (padded_shape L H idx) q ->
          valid_index (layout_shape L) (global_point L H idx q) /\
          tat (halo_result g v) q = tat G (global_point L H idx q)).
    { intros q Hq. unfold global_point. fold (base L H idx).
      destruct (padded_point P L H G5 G6 shape recv send Q1 Q2 Q3 world G2 (narrow_fits _ _ G6 HN) idx q Hv Hq) as [Hb Hg].
      split; auto. rewrite ER2.
      assert (A0 : agrees P L H (tat G) 0 (loaded x S0)).
      { intros idx' g' Hv' Hg' Hcov. unfold F. rewrite loaded_t.
        assert (Hl' : length idx' = length L) by (apply valid_index_length in Hv'; lia).
        pose proof (base_length L H G6 idx' Hl') as Hbl.
        pose proof (block_lo_length L idx' Hl') as Hbo.
        assert (Hp : valid_index (block_shape L idx') (vsub g' (block_lo L idx'))).
        { apply valid_index_nth. unfold vsub. rewrite map2_length by lia. rewrite block_shape_length by auto.
          split; [lia|]. intros j Hj. rewrite map2_nth with (da := 0) (db := 0) by lia.
          rewrite block_shape_nth, block_lo_nth by auto. specialize (Hcov j Hj). cbv zeta in Hcov.
          cbn [Nat.ltb Nat.leb] in Hcov. unfold lo1, ext in Hcov. unfold dim_lo. lia. }
        pose proof (Hx idx' (wk P idx') _ (wk_worker P idx' G3 Hv') Hp) as E.
        rewrite vadd_vsub' in E by lia. rewrite <- E. f_equal.
        unfold base, vadd, vsub. pose proof (H_length L H G6) as HHl.
        assert (El : length (left_halo H idx') = length L).
        { unfold left_halo, recv_plan. rewrite map_length, map2_length; rewrite HHl; auto. }
        apply list_eq_nth with (d := 0).
        - rewrite !map2_length; rewrite ?map2_length; lia.
        - intros j Hj. rewrite !map2_length in Hj by (rewrite ?map2_length; lia).
          rewrite !map2_nth with (da := 0) (db := 0) by (rewrite ?map2_length; lia). lia. }
      pose proof (forward_fills P L H G3 G4 G5 G6 shape recv send Q1 Q2 Q3 world G2 HN (tat G) (loaded x S0)
        (length L) (le_n _) A0 idx (vadd (base L H idx) q) Hv) as E.
      pose proof (base_length L H G6 idx Hl) as Hbl. pose proof (valid_index_length _ _ Hq) as Hql.
      rewrite padded_length in Hql by auto.
      rewrite <- E.
      - unfold F. rewrite Ed, Ewk. rewrite vadd_vsub by lia. reflexivity.
      - unfold vadd. rewrite map2_length; lia.
      - intros j Hj. cbv zeta. destruct (Nat.ltb_spec j (length L)); [|lia].
        rewrite box_spec in Hb. now apply Hb. }
    split; [|split].
    + rewrite ER1. destruct (HK (loaded x S0)) as [K1 _]. rewrite (K1 idx v Hw), loaded_t. now apply Hcx.
    + exact HQ.
    + intros p Hp. destruct (bulk_point L H idx p G6 Hl Hp) as [Hq Ep].
      destruct (HQ _ Hq) as [_ E]. rewrite E, Ep. symmetry. now apply Hx.
  - intros v Hv Hn. destruct (HR v Hv) as (S0 & ER & ES0). destruct (HK (loaded x S0)) as [_ K2].
    rewrite K2 in ER by auto. apply steq_teq. exact ER.
Qed.

Theorem C25_halo_exchange_fills : C25_statement.
Proof. exact C25_proof. Qed.

(** * C26 *)

(** All widths for which the slices lie inside the tensors. *)
Definition C26_statement : Prop :=
  forall (R : CRing) (world : list Z) (P : part) (L : layout) (H : halos)
    (shape : Z -> list Z) (recv send : Z -> list (Z * Z))
    (pre pre' : list call) (x dy : Z -> tensor R) (init init' : Z -> hst) eager eager' gf gb,
    halo_given world P L H -> halos_fit L H -> planned P L H shape recv send ->
    Forall (call_ok P L H) (pre ++ [HForward x]) -> Forall (call_ok P L H) (pre' ++ [HBackward dy]) ->
    (forall v, In v world -> ~ In v (p_ranks P) -> tshape (x v) = tshape (dy v)) ->
    ends world (history_rounds P shape recv send (pre ++ [HForward x])) init eager gf ->
    ends world (history_rounds P shape recv send (pre' ++ [HBackward dy])) init' eager' gb ->
    (forall v, In v world -> tshape (halo_result gf v) = tshape (x v) /\ tshape (halo_result gb v) = tshape (dy v)) /\
    world_inner world (halo_result gf) dy = world_inner world x (halo_result gb).

Lemma inner_split {R : CRing} (world : list Z) (P : part) (f : Z -> R) :
  NoDup world -> part_ok P -> (forall v, In v (p_ranks P) -> In v world) ->
  sumf world f = radd (sumf (range_index (p_shape P)) (fun idx => f (wk P idx)))
                      (sumf world (fun v => if is_active (p_ranks P) v then rzero else f v)).
Proof.
  intros HN HP HW.
  transitivity (radd (sumf world (fun v => if is_active (p_ranks P) v then f v else rzero))
                     (sumf world (fun v => if is_active (p_ranks P) v then rzero else f v))).
  - rewrite <- sumf_add. apply sumf_ext. intros v _.
    destruct (is_active (p_ranks P) v); [now rewrite add_zero_r|now rewrite add_zero_l].
  - f_equal. rewrite (sum_world world (p_ranks P)); auto.
    + rewrite (ranks_wk P HP) at 1. rewrite sumf_map. apply sumf_ext. intros idx Hi. apply in_range_index in Hi.
      replace (is_active (p_ranks P) (wk P idx)) with true; auto. symmetry. apply is_active_spec. now apply wk_In.
    + apply HP.
    + intros v _ Hn. replace (is_active (p_ranks P) v) with false; auto. symmetry. now apply is_active_false.
Qed.

Lemma C26_proof : C26_statement.
Proof.
  intros R world P L H shape recv send pre pre' x dy init init' eager eager' gf gb HG HF HP Hc Hc' Ho He He'.
  pose proof HG as (G1 & G2 & G3 & G4 & G5 & G6).
  pose proof (given_shape P L H shape recv send HP) as Q1.
  pose proof (given_recv P L H shape recv send HP) as Q2.
  pose proof (given_send P L H shape recv send HP) as Q3.
  pose proof (dim_eq world P L H HG) as Ed.
  assert (Hcx : forall idx v, worker_at P idx v -> tshape (x v) = padded_shape L H idx).
  { apply Forall_app in Hc as [_ Hc]. inv Hc. auto. }
  assert (Hcd : forall idx v, worker_at P idx v -> tshape (dy v) = padded_shape L H idx).
  { apply Forall_app in Hc' as [_ Hc']. inv Hc'. auto. }
  set (S0 := sync_rounds (history_rounds P shape recv send pre) init).
  set (T0 := sync_rounds (history_rounds P shape recv send pre') init').
  set (dims := seq 0 (length (p_shape P))).
  assert (HRf : forall v, In v world -> steq (halo_result gf v)
      (h_t (sync_rounds (map (forward_round P shape recv send) dims) (loaded x S0) v))).
  { intros v Hv. destruct (ends_result world P L H shape recv send HG HP
      (map (forward_round P shape recv send) dims) x pre (HForward x) init eager gf v Hv eq_refl He) as (S & E & ->).
    exact E. }
  assert (HRb : forall v, In v world -> steq (halo_result gb v)
      (h_t (sync_rounds (map (backward_round P shape recv send) (rev dims)) (loaded dy T0) v))).
  { intros v Hv. destruct (ends_result world P L H shape recv send HG HP
      (map (backward_round P shape recv send) (rev dims)) dy pre' (HBackward dy) init' eager' gb v Hv eq_refl He') as (S & E & ->).
    exact E. }
  destruct (keep (R := R) world P L H shape recv send HG HP (forward_round P shape recv send)
    dims (loaded x S0) (or_introl eq_refl) (dims_ok world P L H HG)) as [Kf1 Kf2].
  destruct (keep (R := R) world P L H shape recv send HG HP (backward_round P shape recv send)
    (rev dims) (loaded dy T0) (or_intror eq_refl) (dims_rev_ok world P L H HG)) as [Kb1 Kb2].
  assert (HS : forall v, In v world -> tshape (halo_result gf v) = tshape (x v) /\ tshape (halo_result gb v) = tshape (dy v)).
  { intros v Hv. destruct (HRf v Hv) as [-> _], (HRb v Hv) as [-> _].
    destruct (in_dec Z.eq_dec v (p_ranks P)) as [Hi|Hi].
    - rewrite (ranks_wk P G3) in Hi. apply in_map_iff in Hi as (idx & <- & Hi). apply in_range_index in Hi.
      pose proof (wk_worker P idx G3 Hi) as Hw. rewrite (Kf1 _ _ Hw), (Kb1 _ _ Hw). auto.
    - rewrite Kf2, Kb2 by auto. auto. }
  split; auto. unfold world_inner.
  rewrite (inner_split world P _ G1 G3 G2), (inner_split world P (fun v => inner (x v) (halo_result gb v)) G1 G3 G2).
  f_equal.
  - transitivity (pairing P L H (sync_rounds (map (forward_round P shape recv send) dims) (loaded x S0)) (loaded dy T0)).
    + unfold pairing. apply sumf_ext. intros idx Hi. apply in_range_index in Hi.
      pose proof (wk_worker P idx G3 Hi) as Hw. pose proof (wk_world P G3 world G2 idx Hi) as Hin.
      destruct (HRf _ Hin) as [E1 E2]. unfold inner. rewrite E1, (Kf1 _ _ Hw), loaded_t, (Hcx _ _ Hw).
      apply sumf_ext. intros p _. rewrite E2, loaded_t. reflexivity.
    + unfold dims. rewrite Ed.
      rewrite (rounds_adjoint P L H G3 G4 G5 G6 shape recv send Q1 Q2 Q3 world G2 HF (length L) _ _ (le_n _)).
      rewrite <- Ed. fold dims. unfold pairing. apply sumf_ext. intros idx Hi. apply in_range_index in Hi.
      pose proof (wk_worker P idx G3 Hi) as Hw. pose proof (wk_world P G3 world G2 idx Hi) as Hin.
      destruct (HRb _ Hin) as [E1 E2]. unfold inner. rewrite (Hcx _ _ Hw).
      apply sumf_ext. intros p _. rewrite E2, loaded_t. reflexivity.
  - apply sumf_ext. intros v Hv. destruct (is_active (p_ranks P) v) eqn:Ea; auto.
    apply is_active_false in Ea. destruct (HRf v Hv) as [E1 E2], (HRb v Hv) as [E3 E4].
    rewrite Kf2, loaded_t in E1, E2 by auto. rewrite Kb2, loaded_t in E3, E4 by auto.
    unfold inner. rewrite E1. apply sumf_ext. intros p _. now rewrite E2, E4.
Qed.

Theorem C26_halo_exchange_adjoint : C26_statement.
Proof. exact C26_proof. Qed.

(** * C27 *)

(** In the step of dimension [i], forward or backward, worker [v] sends worker
    [u] a message of shape [sh] with tag [t]; worker [u] posts a receive for it. *)
Section Messages.
  Variables (P : part) (shape : Z -> list Z) (recv send : Z -> list (Z * Z)).

  Definition links_to (links : list link) (u t : Z) (sh : list Z) : Prop :=
    exists k, In k links /\ k_on k = true /\ k_peer k = u /\ k_tag k = t /\ compute_nd_slice_shape (k_sl k) = sh.

  Definition sends_message (fwd : bool) (i : nat) (v u t : Z) (sh : list Z) : Prop :=
    let d := halo_dim P shape recv send v i in
    takes_part P v = true /\
    links_to (if fwd then [fwd_lsend d; fwd_rsend d] else [bwd_lsend d; bwd_rsend d]) u t sh.

  Definition expects_message (fwd : bool) (i : nat) (u v t : Z) (sh : list Z) : Prop :=
    let d := halo_dim P shape recv send u i in
    takes_part P u = true /\
    links_to (if fwd then [fwd_lrecv d; fwd_rrecv d] else [bwd_lrecv d; bwd_rrecv d]) v t sh.

  Definition halo_round {R : CRing} (fwd : bool) : nat -> Z -> list (@action (@hst R) (tensor R)) :=
    if fwd then forward_round P shape recv send else backward_round P shape recv send.
End Messages.

(** Messages match in every step; every history of calls, in every execution,
    can go on until it ends, and ends, with every request completed once; and the
    results do not depend on the execution. *)
Definition halo_safe (R : CRing) (world : list Z) (P : part) (shape : Z -> list Z) (recv send : Z -> list (Z * Z)) : Prop :=
  (forall fwd i v u t sh, (i < length (p_shape P))%nat -> In v world -> In u world ->
     (sends_message P shape recv send fwd i v u t sh <-> expects_message P shape recv send fwd i u v t sh)) /\
  (* these are the requests posted *)
  (forall fwd i v u t, (i < length (p_shape P))%nat ->
     ((exists f, In (ASend u t f) (halo_round (R := R) P shape recv send fwd i v)) <->
      exists sh, sends_message P shape recv send fwd i v u t sh) /\
     ((exists f, In (ARecv u t f) (halo_round (R := R) P shape recv send fwd i v)) <->
      exists sh, expects_message P shape recv send fwd i v u t sh)) /\
  (* and this is the shape of what is sent, to a worker of the world *)
  (forall fwd i v u t sh s, (i < length (p_shape P))%nat -> In v world ->
     sends_message P shape recv send fwd i v u t sh ->
     In u world /\ exists m, pay u t (halo_round (R := R) P shape recv send fwd i v) s = [m] /\ tshape m = sh) /\
  forall (calls : list (@call R)) (init : Z -> @hst R),
    let rounds := history_rounds P shape recv send calls in
    let prog := rounds_prog rounds in
    (forall eager, exists N, forall n g, run world prog init eager n g -> (n <= N)%nat) /\
    (forall eager n g, run world prog init eager n g -> ~ done world prog g ->
       exists g', step world prog eager g g') /\
    (forall eager g, ends world rounds init eager g ->
       NoDup (glog g) /\
       forall v r i, In (v, r, i) (glog g) <->
         In v world /\ exists a, nth_error (request_array (nth r (prog v) [])) i = Some a /\ a <> ANull) /\
    (forall eager eager' g g', ends world rounds init eager g -> ends world rounds init eager' g' ->
       forall v, In v world -> Forall2 teq (h_hist (wdata (gw g v))) (h_hist (wdata (gw g' v)))) /\
    (forall eager g, ends world rounds init eager g -> forall v, In v world ->
       length (h_hist (wdata (gw g v))) = (length (h_hist (init v)) + length calls)%nat).

Definition C27_statement : Prop :=
  forall (R : CRing) (world : list Z) (P : part) (L : layout) (shape : Z -> list Z) (recv send : Z -> list (Z * Z)),
    (* plans of the layers *)
    (forall w shapes ny, layer_plan world P L w shapes ny shape recv send -> halo_safe R world P shape recv send) /\
    (* any plan of halos for which the slices lie inside the tensors *)
    (forall H, halo_given world P L H -> halos_fit L H -> planned P L H shape recv send ->
       halo_safe R world P shape recv send).

(** The rounds of the steps leave the earlier results alone. *)
Definition hist_kept {R : CRing} (l : list (@action (@hst R) (tensor R))) : Prop :=
  Forall (fun a => match a with
    | ALocal f => forall s, h_hist (f s) = h_hist s
    | ARecv _ _ f => forall m s, h_hist (f m s) = h_hist s
    | _ => True
    end) l.

Lemma sync1_hist {R : CRing} (rd : @round (@hst R) (tensor R)) S0 v :
  hist_kept (rd v) -> h_hist (sync1 rd S0 v) = h_hist (S0 v).
Proof.
  intros K. unfold sync1. generalize (fun src t => pay v t (rd src) (S0 src)) as msgs. intros msgs.
  generalize (S0 v) as s0. intros s0.
  assert (E : forall l : list (@action (@hst R) (tensor R)), hist_kept l -> forall s, h_hist (acts_run l s) = h_hist s).
  { intros l Kl. induction Kl as [|a l Ha Kl IH]; intros s; [reflexivity|].
    destruct a; cbn [acts_run]; rewrite IH; auto. }
  transitivity (h_hist (acts_run (rd v) s0)); [|now apply E]. generalize (acts_run (rd v) s0) as s.
  induction K as [|a l Ha K IH]; intros s; [reflexivity|]. destruct a; cbn [unpack_all]; rewrite IH; auto.
  destruct (msgs _ _); auto.
Qed.

Lemma forward_hist {R : CRing} P shape recv send i S0 v :
  h_hist (sync1 (forward_round (R := R) P shape recv send i) S0 v) = h_hist (S0 v).
Proof.
  apply sync1_hist. unfold forward_round. destruct (takes_part P v); [|constructor]. cbv zeta.
  unfold exchange, local_if, recv_link, send_link.
  repeat (constructor; [destruct (k_on _); intros; reflexivity || exact I|]). constructor.
Qed.

Lemma backward_hist {R : CRing} P shape recv send i S0 v :
  h_hist (sync1 (backward_round (R := R) P shape recv send i) S0 v) = h_hist (S0 v).
Proof.
  apply sync1_hist. unfold backward_round. destruct (takes_part P v); [|constructor]. cbv zeta.
  unfold exchange, local_if, recv_link, send_link.
  repeat (constructor; [destruct (k_on _); intros; reflexivity || exact I|]). constructor.
Qed.

Lemma dims_hist {R : CRing} (rd : nat -> @round (@hst R) (tensor R)) v :
  (forall i S0, h_hist (sync1 (rd i) S0 v) = h_hist (S0 v)) ->
  forall l S0, h_hist (sync_rounds (map rd l) S0 v) = h_hist (S0 v).
Proof.
  intros K l. induction l as [|i l IH]; intros S0; [reflexivity|].
  change (h_hist (sync_rounds (map rd l) (sync1 (rd i) S0) v) = h_hist (S0 v)). rewrite IH. apply K.
Qed.

Lemma given_safe (R : CRing) world P L H shape recv send :
  halo_given world P L H -> planned P L H shape recv send -> halo_safe R world P shape recv send.
Proof.
  intros HG HP. pose proof HG as (G1 & G2 & G3 & G4 & G5 & G6).
  pose proof (given_shape P L H shape recv send HP) as Q1.
  pose proof (given_recv P L H shape recv send HP) as Q2.
  pose proof (given_send P L H shape recv send HP) as Q3.
  pose proof (dim_eq world P L H HG) as Ed.
  split; [|split; [|split]].
  - intros fwd i v u t sh Hi Hv Hu. rewrite Ed in Hi.
    destruct (pairs P L H G3 G5 G6 shape recv send Q1 Q2 Q3 world G2 i Hi) as (P1 & P2 & P3 & P4 & P5 & P6 & P7 & P8).
    pose proof (link_shapes P L H G3 G5 G6 shape recv send Q1 Q2 Q3 world G2 i Hi) as LS. cbv zeta in LS.
    fold (D P shape recv send i) in *.
    unfold sends_message, expects_message. change (halo_dim P shape recv send v i) with (D P shape recv send i v).
    change (halo_dim P shape recv send u i) with (D P shape recv send i u).
    split; intros (Ht & k & Hk & Ho & Hp & Htg & Hs).
    + specialize (LS v Ht). destruct LS as (S1 & S2 & S3 & S4).
      destruct fwd; cbn [In] in Hk; destruct Hk as [<-|[<-|[]]].
      * destruct (P4 v Hv Ht Ho) as (_ & B1 & B2 & B3). rewrite Hp in *. split; auto. cbn [k_on k_peer k_tag k_sl fwd_lsend] in *.
        exists (fwd_rrecv (D P shape recv send i u)). rewrite <- Hp in *. repeat split; auto; [cbn; auto|]. cbn [fwd_rrecv k_sl]. rewrite <- S2; auto.
      * destruct (P2 v Hv Ht Ho) as (_ & B1 & B2 & B3). rewrite Hp in *. split; auto. cbn [k_on k_peer k_tag k_sl fwd_rsend] in *.
        exists (fwd_lrecv (D P shape recv send i u)). rewrite <- Hp in *. repeat split; auto; [cbn; auto|]. cbn [fwd_lrecv k_sl]. rewrite <- S4; auto.
      * destruct (P8 v Hv Ht Ho) as (_ & B1 & B2 & B3). rewrite Hp in *. split; auto. cbn [k_on k_peer k_tag k_sl bwd_lsend] in *.
        exists (bwd_rrecv (D P shape recv send i u)). rewrite <- Hp in *. repeat split; auto; [cbn; auto|]. cbn [bwd_rrecv k_sl]. rewrite <- S1; auto.
      * destruct (P6 v Hv Ht Ho) as (_ & B1 & B2 & B3). rewrite Hp in *. split; auto. cbn [k_on k_peer k_tag k_sl bwd_rsend] in *.
        exists (bwd_lrecv (D P shape recv send i u)). rewrite <- Hp in *. repeat split; auto; [cbn; auto|]. cbn [bwd_lrecv k_sl]. rewrite <- S3; auto.
    + specialize (LS u Ht). destruct LS as (S1 & S2 & S3 & S4).
      destruct fwd; cbn [In] in Hk; destruct Hk as [<-|[<-|[]]].
      * destruct (P1 u Hu Ht Ho) as (_ & B1 & B2 & B3). rewrite Hp in *. split; auto. cbn [k_on k_peer k_tag k_sl fwd_lrecv] in *.
        exists (fwd_rsend (D P shape recv send i v)). rewrite <- Hp in *. repeat split; auto; [cbn; auto|]. cbn [fwd_rsend k_sl]. rewrite <- S1; auto.
      * destruct (P3 u Hu Ht Ho) as (_ & B1 & B2 & B3). rewrite Hp in *. split; auto. cbn [k_on k_peer k_tag k_sl fwd_rrecv] in *.
        exists (fwd_lsend (D P shape recv send i v)). rewrite <- Hp in *. repeat split; auto; [cbn; auto|]. cbn [fwd_lsend k_sl]. rewrite <- S3; auto.
      * destruct (P5 u Hu Ht Ho) as (_ & B1 & B2 & B3). rewrite Hp in *. split; auto. cbn [k_on k_peer k_tag k_sl bwd_lrecv] in *.
        exists (bwd_rsend (D P shape recv send i v)). rewrite <- Hp in *. repeat split; auto; [cbn; auto|]. cbn [bwd_rsend k_sl]. rewrite <- S2; auto.
      * destruct (P7 u Hu Ht Ho) as (_ & B1 & B2 & B3). rewrite Hp in *. split; auto. cbn [k_on k_peer k_tag k_sl bwd_rrecv] in *.
        exists (bwd_lsend (D P shape recv send i v)). rewrite <- Hp in *. repeat split; auto; [cbn; auto|]. cbn [bwd_lsend k_sl]. rewrite <- S4; auto.
  - intros fwd i v u t _. unfold sends_message, expects_message, links_to.
    assert (E : forall pack unpack (lr rr ls rs : link),
      ((exists f, In (ASend u t f) (exchange (R := R) pack unpack lr rr ls rs)) <->
       exists k, In k [ls; rs] /\ k_on k = true /\ k_peer k = u /\ k_tag k = t) /\
      ((exists f, In (ARecv u t f) (exchange (R := R) pack unpack lr rr ls rs)) <->
       exists k, In k [lr; rr] /\ k_on k = true /\ k_peer k = u /\ k_tag k = t)).
    { intros pack unpack lr rr ls rs. unfold exchange, local_if, recv_link, send_link. cbn [In]. split; split.
      - intros [f Hf]. destruct Hf as [Hf|[Hf|[Hf|[Hf|[Hf|[Hf|[]]]]]]].
        + destruct (k_on ls); discriminate Hf. + destruct (k_on rs); discriminate Hf.
        + destruct (k_on lr); discriminate Hf. + destruct (k_on rr); discriminate Hf.
        + exists ls. destruct (k_on ls); inversion Hf; auto. + exists rs. destruct (k_on rs); inversion Hf; auto.
      - intros (k & [<-|[<-|[]]] & Ho & <- & <-); rewrite Ho; eexists; [do 4 right; left|do 5 right; left]; reflexivity.
      - intros [f Hf]. destruct Hf as [Hf|[Hf|[Hf|[Hf|[Hf|[Hf|[]]]]]]].
        + destruct (k_on ls); discriminate Hf. + destruct (k_on rs); discriminate Hf.
        + exists lr. destruct (k_on lr); inversion Hf; auto. + exists rr. destruct (k_on rr); inversion Hf; auto.
        + destruct (k_on ls); discriminate Hf. + destruct (k_on rs); discriminate Hf.
      - intros (k & [<-|[<-|[]]] & Ho & <- & <-); rewrite Ho; eexists; [do 2 right; left|do 3 right; left]; reflexivity. }
    destruct fwd; unfold halo_round, forward_round, backward_round; destruct (takes_part P v); cbv iota zeta;
      try (split; (split; [intros [f Hf]; destruct Hf|intros (sh & Hf & _); discriminate Hf]));
      match goal with |- context [exchange ?p ?q ?a ?b ?c ?d] => destruct (E p q a b c d) as [E1 E2] end;
      rewrite E1, E2;
      (split; (split; [intros (k & Hk & Ho & Hp & Ht); eexists; split; [reflexivity|]; exists k; repeat split; eauto
                      |intros (sh & _ & k & Hk & Ho & Hp & Ht & _); exists k; tauto])).
  - intros fwd i v u t sh s Hi Hv (Ht & k & Hk & Ho & Hp & Htg & Hs). rewrite Ed in Hi.
    destruct (pairs P L H G3 G5 G6 shape recv send Q1 Q2 Q3 world G2 i Hi) as (P1 & P2 & P3 & P4 & P5 & P6 & P7 & P8).
    change (halo_dim P shape recv send v i) with (D P shape recv send i v) in Hk.
    assert (Hu : In u world).
    { rewrite <- Hp. destruct fwd; destruct Hk as [<-|[<-|[]]].
      - apply (P4 v Hv Ht Ho). - apply (P2 v Hv Ht Ho). - apply (P8 v Hv Ht Ho). - apply (P6 v Hv Ht Ho). }
    split; [exact Hu|].
    assert (Hsd : sends_to k u = true) by (unfold sends_to; rewrite Ho; cbn [andb]; now apply Z.eqb_eq).
    destruct fwd; destruct Hk as [<-|[<-|[]]]; cbn [fwd_lsend fwd_rsend bwd_lsend bwd_rsend k_tag] in Htg; subst t.
    + eexists. split.
      * apply (link_pay_left (R := R) fwd_pack fwd_unpack (takes_part P) (fun v => fwd_lrecv (D P shape recv send i v))
          (fun v => fwd_rrecv (D P shape recv send i v)) (fun v => fwd_lsend (D P shape recv send i v))
          (fun v => fwd_rsend (D P shape recv send i v)) ltac:(reflexivity) ltac:(reflexivity)); auto.
      * unfold packed. rewrite Ho. destruct (k_on (fwd_rsend _)); exact Hs.
    + eexists. split.
      * apply (link_pay_right (R := R) fwd_pack fwd_unpack (takes_part P) (fun v => fwd_lrecv (D P shape recv send i v))
          (fun v => fwd_rrecv (D P shape recv send i v)) (fun v => fwd_lsend (D P shape recv send i v))
          (fun v => fwd_rsend (D P shape recv send i v)) ltac:(reflexivity) ltac:(reflexivity)); auto.
      * unfold packed. rewrite Ho. destruct (k_on (fwd_lsend _)); exact Hs.
    + eexists. split.
      * apply (link_pay_left (R := R) bwd_pack bwd_unpack (takes_part P) (fun v => bwd_lrecv (D P shape recv send i v))
          (fun v => bwd_rrecv (D P shape recv send i v)) (fun v => bwd_lsend (D P shape recv send i v))
          (fun v => bwd_rsend (D P shape recv send i v)) ltac:(reflexivity) ltac:(reflexivity)); auto.
      * unfold packed. rewrite Ho. destruct (k_on (bwd_rsend _)); exact Hs.
    + eexists. split.
      * apply (link_pay_right (R := R) bwd_pack bwd_unpack (takes_part P) (fun v => bwd_lrecv (D P shape recv send i v))
          (fun v => bwd_rrecv (D P shape recv send i v)) (fun v => bwd_lsend (D P shape recv send i v))
          (fun v => bwd_rsend (D P shape recv send i v)) ltac:(reflexivity) ltac:(reflexivity)); auto.
      * unfold packed. rewrite Ho. destruct (k_on (bwd_lsend _)); exact Hs.
  - intros calls init rounds prog.
    pose proof (halo_async (R := R) world P L H shape recv send HG HP calls init) as HA. fold rounds in HA.
    split; [|split; [|split; [|split]]].
    + apply (ao_bounded _ _ _ _ HA).
    + apply (ao_progress _ _ _ _ HA).
    + intros eager g (n & Hr & Hd). destruct (ao_log _ _ _ _ HA eager n g Hr Hd) as [L1 L2].
      split; auto. intros v r i. rewrite L2, request_at_array. reflexivity.
    + intros eager eager' g g' (n & Hr & Hd) (n' & Hr' & Hd') v Hv.
      pose proof (ao_result _ _ _ _ HA _ _ _ v Hr Hd Hv) as [_ _ _ E].
      pose proof (ao_result _ _ _ _ HA _ _ _ v Hr' Hd' Hv) as [_ _ _ E'].
      revert E E'. generalize (h_hist (wdata (gw g v))), (h_hist (wdata (gw g' v))).
      generalize (h_hist (sync_rounds rounds init v)). clear.
      intros l a b E. revert b. induction E as [|p q a l Hq E IH]; intros b E'; inversion E' as [|p' ? b' ? Hq' E2]; subst;
        constructor; auto.
      apply (teq_trans _ q); [now apply steq_teq|]. apply teq_sym. now apply steq_teq.
    + intros eager g (n & Hr & Hd) v Hv.
      pose proof (ao_result _ _ _ _ HA _ _ _ v Hr Hd Hv) as [_ _ _ E].
      apply Forall2_length in E. rewrite E. clear E.
      unfold rounds. clear rounds prog HA Hr Hd g.
      induction calls as [|c cs IH] using rev_ind; [simpl; lia|].
      rewrite history_last, app_length. cbn [length].
      enough (E : forall S0, length (h_hist (sync_rounds (call_rounds P shape recv send c) S0 v)) =
                 (length (h_hist (S0 v)) + 1)%nat) by (rewrite E, IH; lia).
      intros S0.
      assert (E : forall x (l : list (@round (@hst R) (tensor R))), (forall S0, h_hist (sync_rounds l S0 v) = h_hist (S0 v)) ->
        length (h_hist (sync_rounds ([load_round x] ++ l ++ [store_round]) S0 v)) = (length (h_hist (S0 v)) + 1)%nat).
      { intros x l Hl. rewrite (sync_rounds_app [load_round x]), sync_rounds_app. unfold sync_rounds at 1. cbn [fold_left].
        unfold sync1 at 1. cbn [store_round acts_run unpack_all h_hist]. rewrite app_length, Hl. reflexivity. }
      destruct c as [x|dy]; apply E, dims_hist; intros; [apply forward_hist|apply backward_hist].
Qed.

Lemma layer_given world P L w shapes ny shape recv send :
  layer_plan world P L w shapes ny shape recv send ->
  let H := layer_halos L (full_window (length L) w) in
  halo_given world P L H /\ halos_fit L H /\ planned P L H shape recv send.
Proof.
  intros (G1 & G2 & G3 & GW & HS & Hp) H. destruct HS as (H1 & H2 & H3 & H4 & H5 & H6 & H7).
  split; [|split].
  - split; [auto|]. split; [auto|]. split; [auto|]. split; [auto|]. split; [auto|]. apply layer_halos_ok.
  - apply layer_halos_fit; auto. apply Forall_nth. intros j d Hj. rewrite compute_out_shape_length in Hj.
    rewrite (nth_indep _ d 0) by (now rewrite compute_out_shape_length). rewrite compute_out_shape_nth by auto.
    rewrite <- (ny_nth L _ ny H5 H6 H7 j Hj). pose proof (ny_pos L _ ny H6 H7 j Hj). lia.
  - intros idx v Hw. destruct (Hp idx v Hw) as (info & Hi & Hr & Hs & Hsh).
    rewrite exchange_info_full in Hi by (now rewrite layout_shape_length). rewrite layout_shape_length, <- GW in Hi.
    rewrite (exchange_info_plan L) in Hi by (auto; rewrite GW; apply Hw). injection Hi as <-.
    cbn [e_recv e_send e_halo] in *. split; [|split]; auto.
Qed.

Lemma C27_proof : C27_statement.
Proof.
  intros R world P L shape recv send. split.
  - intros w shapes ny HL. destruct (layer_given _ _ _ _ _ _ _ _ _ HL) as (A & B & C). now apply (given_safe R _ _ _ _ _ _ _ A C).
  - intros H A B C. now apply (given_safe R _ _ _ _ _ _ _ A C).
Qed.

Theorem C27_halo_exchange_schedules : C27_statement.
Proof. exact C27_proof. Qed.

(** * A concrete exchange

    A 5x5 tensor in blocks [3; 2] by [2; 3] on workers 10 - 13 of a 2x2 partition,
    with halos of one row below and two above, two columns to the right and one to
    the left; worker 9 takes no part.  The ghost cells hold [-1] before. *)
Definition hx_P : part := mkpart 0 [10; 11; 12; 13] [2; 2].
Definition hx_L : layout := [[3; 2]; [2; 3]].
Definition hx_H : halos := [[(0, 1); (2, 0)]; [(0, 2); (1, 0)]].
Definition hx_world : list Z := [9; 10; 11; 12; 13].
Definition hx_idx (v : Z) : list Z := [(v - 10) / 2; (v - 10) mod 2].
Definition hx_shape (v : Z) : list Z := padded_shape hx_L hx_H (hx_idx v).
Definition hx_recv (v : Z) : list (Z * Z) := recv_plan hx_H (hx_idx v).
Definition hx_send (v : Z) : list (Z * Z) := send_plan hx_H (hx_idx v).
Definition hx_G : tensor Zring := @mkt Zring [5; 5] (fun i => 10 * nth 0 i 0 + nth 1 i 0).
Definition hx_x (v : Z) : tensor Zring :=
  @mkt Zring (hx_shape v) (fun q =>
    let p := vsub q (left_halo hx_H (hx_idx v)) in
    if in_boxb [0; 0] (block_shape hx_L (hx_idx v)) p then tat hx_G (vadd (block_lo hx_L (hx_idx v)) p) else -1).
Definition hx_dy (v : Z) : tensor Zring := @mkt Zring (hx_shape v) (fun q => v + nth 0 q 0 - 2 * nth 1 q 0).
Definition hx_zero : Z -> @hst Zring := fun _ =>
  mkhst (@mkt Zring [] (fun _ => 0)) (@mkt Zring [] (fun _ => 0)) (@mkt Zring [] (fun _ => 0)) [].
Definition hx_run (cs : list (@call Zring)) (v : Z) : tensor Zring :=
  last (h_hist (sync_rounds (history_rounds hx_P hx_shape hx_recv hx_send cs) hx_zero v)) (@mkt Zring [] (fun _ => 0)).

Lemma hx_workers idx v : worker_at hx_P idx v -> (idx = [0; 0] /\ v = 10) \/ (idx = [0; 1] /\ v = 11) \/
  (idx = [1; 0] /\ v = 12) \/ (idx = [1; 1] /\ v = 13).
Proof.
  intros [Hi Hv]. inversion Hi as [|? a ? t Ha Ht]; subst. inversion Ht as [|? b ? t' Hb Ht']; subst.
  inversion Ht'; subst.
  assert (a = 0 \/ a = 1) as [-> | ->] by lia; assert (b = 0 \/ b = 1) as [-> | ->] by lia; simpl in Hv; inv Hv; auto 6.
Qed.

Lemma hx_given : halo_given hx_world hx_P hx_L hx_H.
Proof.
  split; [repeat constructor; simpl; lia|].
  split; [simpl; intros; lia|].
  split; [repeat split; try discriminate; repeat constructor; simpl; lia|].
  split; [repeat constructor; lia|]. split; [reflexivity|].
  repeat constructor; simpl; lia.
Qed.

Lemma hx_narrow : halos_narrow hx_L hx_H.
Proof.
  unfold halos_narrow, hx_L, hx_H. apply Forall2_cons; [|apply Forall2_cons; [|apply Forall2_nil]];
    intros i H0 H1; simpl in H1; assert (i = 0) by lia; subst; split; vm_compute; discriminate.
Qed.

Lemma hx_planned : planned hx_P hx_L hx_H hx_shape hx_recv hx_send.
Proof.
  intros idx v H. destruct (hx_workers _ _ H) as [[-> ->]|[[-> ->]|[[-> ->]|[-> ->]]]]; repeat split; reflexivity.
Qed.

Lemma hx_calls : Forall (call_ok hx_P hx_L hx_H) [HBackward hx_dy; HForward hx_x].
Proof.
  repeat constructor; intros idx v H;
    destruct (hx_workers _ _ H) as [[-> ->]|[[-> ->]|[[-> ->]|[-> ->]]]]; reflexivity.
Qed.

Lemma hx_bulk idx v p : worker_at hx_P idx v -> valid_index (block_shape hx_L idx) p ->
  tat (hx_x v) (vadd (left_halo hx_H idx) p) = tat hx_G (vadd (block_lo hx_L idx) p).
Proof.
  intros H Hp.
  assert (E : hx_idx v = idx) by (destruct (hx_workers _ _ H) as [[-> ->]|[[-> ->]|[[-> ->]|[-> ->]]]]; reflexivity).
  unfold hx_x. cbn [tat]. rewrite E.
  assert (Ep : vsub (vadd (left_halo hx_H idx) p) (left_halo hx_H idx) = p).
  { apply valid_index_length in Hp.
    assert (length p = 2%nat /\ length (left_halo hx_H idx) = 2%nat) as [A B]
      by (destruct (hx_workers _ _ H) as [[-> ->]|[[-> ->]|[[-> ->]|[-> ->]]]]; split; (exact Hp || reflexivity)).
    destruct p as [|a [|b [|]]]; try discriminate A.
    destruct (left_halo hx_H idx) as [|c [|d [|]]]; try discriminate B. cbn. repeat f_equal; lia. }
  rewrite Ep.
  assert (Eb : in_boxb [0; 0] (block_shape hx_L idx) p = true).
  { destruct (hx_workers _ _ H) as [[-> ->]|[[-> ->]|[[-> ->]|[-> ->]]]];
      match type of Hp with valid_index ?s _ => let s' := eval vm_compute in s in change s with s' in Hp |- * end;
      inversion Hp as [|? a ? t Ha Ht]; subst; inversion Ht as [|? b ? t' Hb Ht']; subst; inversion Ht'; subst;
      apply in_boxb_spec; (split; [reflexivity|split; [reflexivity|]]); intros [|[|k]] Hk; cbn in *; lia. }
  now rewrite Eb.
Qed.

(** The lower right corner cells of worker 10 are those of worker 13, which it
    never talks to. *)
Example C25_example :
  halo_given hx_world hx_P hx_L hx_H /\ halos_narrow hx_L hx_H /\ planned hx_P hx_L hx_H hx_shape hx_recv hx_send /\
  Forall (call_ok hx_P hx_L hx_H) [HBackward hx_dy; HForward hx_x] /\
  (forall idx v p, worker_at hx_P idx v -> valid_index (block_shape hx_L idx) p ->
     tat (hx_x v) (vadd (left_halo hx_H idx) p) = tat hx_G (vadd (block_lo hx_L idx) p)) /\
  tshape (hx_run [HBackward hx_dy; HForward hx_x] 10) = [4; 4] /\
  map (tat (hx_x 10)) (indices [4; 4]) =
    [0; 1; -1; -1; 10; 11; -1; -1; 20; 21; -1; -1; -1; -1; -1; -1] /\
  map (tat (hx_run [HBackward hx_dy; HForward hx_x] 10)) (indices [4; 4]) =
    [0; 1; 2; 3; 10; 11; 12; 13; 20; 21; 22; 23; 30; 31; 32; 33] /\
  teq (hx_run [HForward hx_x] 9) (hx_x 9).
Proof.
  split; [exact hx_given|]. split; [exact hx_narrow|]. split; [exact hx_planned|]. split; [exact hx_calls|].
  split; [exact hx_bulk|]. repeat split; vm_compute; reflexivity.
Qed.

(** Gradients of the ghost cells travel to their owners. *)
Example C26_example :
  halos_fit hx_L hx_H /\ Forall (call_ok hx_P hx_L hx_H) [HBackward hx_dy] /\
  (forall v, In v hx_world -> ~ In v (p_ranks hx_P) -> tshape (hx_x v) = tshape (hx_dy v)) /\
  world_inner hx_world (hx_run [HForward hx_x]) hx_dy = world_inner hx_world hx_x (hx_run [HBackward hx_dy]) /\
  world_inner hx_world (hx_run [HForward hx_x]) hx_dy = 15740 /\
  map (tat (hx_run [HBackward hx_dy] 13)) (indices [4; 4]) =
    [0; 0; 0; 0; 0; 0; 0; 0; 0; 44; 36; 17; 0; 25; 21; 10].
Proof.
  split; [apply narrow_fits; [apply hx_given|exact hx_narrow]|].
  split; [repeat constructor; pose proof hx_calls as K; inv K; auto|].
  split; [auto|]. repeat split; vm_compute; reflexivity.
Qed.

(** The plan of a layer with kernel 3 and stride 2 on an unbalanced layout: worker 5
    receives three columns from the right and no one receives from the left. *)
Definition lx_w : window := mkwindow [3] [2] [1] [1].
Definition lx_L : layout := [[1; 1]; [5; 2; 6]].
Definition lx_P : part := mkpart 0 [1; 2; 3; 4; 5; 6] [2; 3].
Definition lx_H : halos := layer_halos lx_L (full_window 2 lx_w).
Definition lx_idx (v : Z) : list Z := [(v - 1) / 3; (v - 1) mod 3].
Definition lx_shape (v : Z) : list Z := padded_shape lx_L lx_H (lx_idx v).
Definition lx_recv (v : Z) : list (Z * Z) := recv_plan lx_H (lx_idx v).
Definition lx_send (v : Z) : list (Z * Z) := send_plan lx_H (lx_idx v).

Example C27_example :
  layer_plan [0; 1; 2; 3; 4; 5; 6] lx_P lx_L lx_w (Some (block_shape lx_L)) [2; 7] lx_shape lx_recv lx_send /\
  lx_H = [[(0, 0); (0, 0)]; [(0, 1); (0, 3); (0, 0)]] /\
  sends_message lx_P lx_shape lx_recv lx_send true 1 6 5 0 [1; 3] /\
  expects_message lx_P lx_shape lx_recv lx_send true 1 5 6 0 [1; 3] /\
  map (fun a => match a with ARecv s t _ => (1, s, t) | ASend d t _ => (2, d, t)
                | ANull => (0, 0, 0) | ALocal _ => (3, 0, 0) end)
    (request_array (halo_round (R := Zring) lx_P lx_shape lx_recv lx_send true 1 5)) =
  [(0, 0, 0); (1, 6, 0); (2, 4, 0); (0, 0, 0)].
Proof.
  assert (W : forall idx v, worker_at lx_P idx v -> lx_idx v = idx /\ In v [1; 2; 3; 4; 5; 6]).
  { intros idx v [Hi Hv]. inversion Hi as [|? a ? t Ha Ht]; subst. inversion Ht as [|? b ? t' Hb Ht']; subst.
    inversion Ht'; subst.
    assert (a = 0 \/ a = 1) as [-> | ->] by lia; assert (b = 0 \/ b = 1 \/ b = 2) as [-> |[-> | ->]] by lia;
      simpl in Hv; inv Hv; split; try reflexivity; simpl; auto 7. }
  split; [|split; [reflexivity|split; [|split]]].
  - split; [repeat constructor; simpl; lia|].
    split; [simpl; intros; lia|].
    split; [repeat split; try discriminate; repeat constructor; simpl; lia|].
    split; [reflexivity|].
    split.
    + split; [|split; [|split; [|split; [|split; [|split]]]]].
      * repeat constructor; lia.
      * repeat constructor; lia.
      * intros idx _. reflexivity.
      * repeat split; simpl; lia.
      * repeat split; repeat constructor; discriminate.
      * unfold lx_L, lx_w. split; auto. intros [|[|j]] Hj; [| |simpl in Hj; lia]; cbn [nth layout_shape map];
          (split; [cbn; lia|]); intros o Ho; show_window; lia.
      * repeat constructor.
    + intros idx v Hw. destruct (W _ _ Hw) as [<- Hv]. cbn [In] in Hv.
      destruct Hv as [<-|[<-|[<-|[<-|[<-|[<-|[]]]]]]]; eexists; repeat split; reflexivity.
  - split; [reflexivity|]. eexists. split; [left; reflexivity|]. repeat split; reflexivity.
  - split; [reflexivity|]. eexists. split; [right; left; reflexivity|]. repeat split; reflexivity.
  - reflexivity.
Qed.

Print Assumptions C25_halo_exchange_fills.
Print Assumptions C26_halo_exchange_adjoint.
Print Assumptions C27_halo_exchange_schedules.
