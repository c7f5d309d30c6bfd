(** Partitions of the channel- and generally-distributed convolutions. *)

From Verif Require Import Prelude SpecIndex SpecLayout SpecPartition ModelSlicing ModelDecomposition ModelPartition ProofSlicing
  ProofDecomposition ProofPartition Ring Tensor ModelCollectives ProofCollectives PropCollectives Blocks ModelRepartition
  ProofRepartition ModelHaloMixin ProofHaloMixin ModelFeatureLayer ModelUtilities ModelLinear ProofWork PropLinear ModelConv.

(** ** Sub-partitions with some coordinates zero *)

Definition masked (m : list bool) (s : list Z) : list Z := map2 (fun (b : bool) n => if b then 1 else n) m s.
Definition mask_zero (m : list bool) (c : list Z) : bool :=
  forallb (fun p : bool * Z => if fst p then snd p =? 0 else true) (combine m c).

Lemma filter_flat_map {A B} (p : B -> bool) (f : A -> list B) l :
  filter p (flat_map f l) = flat_map (fun a => filter p (f a)) l.
Proof. induction l as [|a l IH]; [reflexivity|]. cbn [flat_map]. now rewrite filter_app, IH. Qed.

Lemma filter_map {A B} (p : B -> bool) (f : A -> B) l : filter p (map f l) = map f (filter (fun a => p (f a)) l).
Proof. induction l as [|a l IH]; [reflexivity|]. cbn [map filter]. destruct (p (f a)); cbn [map]; now rewrite IH. Qed.

Lemma flat_map_zero {A} (f : Z -> list A) n : 0 < n -> (forall i, 0 < i -> f i = []) -> flat_map f (zrange n) = f 0.
Proof.
  intros Hn Hf. replace n with (1 + (n - 1)) by lia. rewrite zrange_app by lia. rewrite flat_map_app.
  change (zrange 1) with [0]. cbn [flat_map]. rewrite app_nil_r.
  assert (E : flat_map f (map (fun i => 1 + i) (zrange (n - 1))) = []).
  { assert (K : forall l, (forall i, In i l -> 0 < i) -> flat_map f l = []).
    { induction l as [|i l IH]; intros K; [reflexivity|]. cbn [flat_map]. rewrite Hf by (apply K; now left).
      rewrite IH; auto. intros j Hj. apply K. now right. }
    apply K. intros i Hi. apply in_map_iff in Hi as (j & <- & Hj). apply in_zrange in Hj. lia. }
  rewrite E. apply app_nil_r.
Qed.

Lemma mask_filter m : forall s, length m = length s -> pos_shape s ->
  filter (mask_zero m) (range_index s) = range_index (masked m s).
Proof.
  induction m as [|b m IH]; intros [|n s] E Hp; try discriminate; [reflexivity|].
  inversion Hp; subst. injection E as E. cbn [range_index masked map2]. fold (masked m s).
  rewrite filter_flat_map.
  assert (K : forall i, filter (mask_zero (b :: m)) (map (cons i) (range_index s)) =
                        if b && negb (i =? 0) then [] else map (cons i) (range_index (masked m s))).
  { intros i. rewrite filter_map. rewrite <- IH by auto. destruct b; cbn [andb].
    - destruct (Z.eqb_spec i 0) as [->|Ne]; cbn [negb].
      + reflexivity.
      + rewrite filter_ext with (g := fun _ => false).
        * induction (range_index s); cbn [filter map]; auto.
        * intros c. unfold mask_zero. cbn [combine forallb fst snd]. apply Z.eqb_neq in Ne. now rewrite Ne.
    - reflexivity. }
  destruct b.
  - rewrite flat_map_zero; auto.
    + rewrite K. cbn [andb negb Z.eqb]. change (zrange 1) with [0]. cbn [flat_map]. now rewrite app_nil_r.
    + intros i Hi. rewrite K. replace (i =? 0) with false by (symmetry; apply Z.eqb_neq; lia). reflexivity.
  - apply flat_map_ext. intros i. rewrite K. reflexivity.
Qed.

Lemma masked_length m s : length m = length s -> length (masked m s) = length s.
Proof. intros E. unfold masked. rewrite map2_length; auto. Qed.

Lemma masked_pos m : forall s, length m = length s -> pos_shape s -> pos_shape (masked m s).
Proof.
  induction m as [|b m IH]; intros [|n s] E Hp; try discriminate; [constructor|]. inversion Hp; subst. injection E as E.
  constructor; [destruct b; lia|]. apply IH; auto.
Qed.

Lemma masked_valid m : forall s c, length m = length s -> pos_shape s ->
  (valid_index (masked m s) c <-> valid_index s c /\ mask_zero m c = true).
Proof.
  intros s c E Hp. rewrite <- in_range_index, <- mask_filter by auto. rewrite filter_In, in_range_index. tauto.
Qed.

(** The numbered workers. *)
Lemma numbered_map (Pw : part) keep : part_ok Pw ->
  incl_ranks (p_ranks Pw) (map fst (filter (fun ic => keep (snd ic))
    (combine (zrange (zprod (p_shape Pw))) (range_index (p_shape Pw))))) =
  map (wk Pw) (filter keep (range_index (p_shape Pw))).
Proof.
  intros HP. pose proof (ranks_wk Pw HP) as HR.
  assert (HL : zprod (p_shape Pw) = Z.of_nat (length (range_index (p_shape Pw)))).
  { rewrite range_index_length; auto. apply pos_nonneg. apply HP. }
  rewrite HL. rewrite HR at 1. clear HR HL. unfold incl_ranks.
  assert (G : forall l pre, map (fun r => nth (Z.to_nat r) (map (wk Pw) (pre ++ l)) 0)
     (map fst (filter (fun ic => keep (snd ic)) (combine (map (fun i => Z.of_nat (length pre) + i) (zrange (Z.of_nat (length l)))) l)))
     = map (wk Pw) (filter keep l)).
  { induction l as [|c l IH]; intros pre.
    - now destruct (map _ _).
    - replace (Z.of_nat (length (c :: l))) with (1 + Z.of_nat (length l)) by (cbn [length]; lia).
      rewrite zrange_app by lia. change (zrange 1) with [0]. cbn [app map combine filter]. cbn [snd].
      assert (E : map (fun r => nth (Z.to_nat r) (map (wk Pw) (pre ++ c :: l)) 0)
               (map fst (filter (fun ic : Z * list Z => keep (snd ic))
                  (combine (map (fun i => Z.of_nat (length pre) + i) (map (fun i => 1 + i) (zrange (Z.of_nat (length l))))) l)))
               = map (wk Pw) (filter keep l)).
      { specialize (IH (pre ++ [c])). rewrite <- IH. rewrite <- app_assoc. cbn [app]. f_equal. f_equal. f_equal. f_equal.
        rewrite map_map. apply map_ext. intros i. rewrite app_length. cbn [length]. lia. }
      destruct (keep c) eqn:Ek; cbn [map]; rewrite E; auto. f_equal. cbn [fst].
      rewrite Z.add_0_r, Nat2Z.id. rewrite map_app, app_nth2 by (rewrite map_length; lia).
      rewrite map_length, Nat.sub_diag. reflexivity. }
  specialize (G (range_index (p_shape Pw)) []). cbn [app length] in G. rewrite <- G. do 3 f_equal.
  f_equal. rewrite <- (map_id (zrange _)) at 1. apply map_ext. intros i. lia.
Qed.

Definition sub_part (m : list bool) (Pw : part) : part :=
  mkpart (p_root Pw) (map (wk Pw) (range_index (masked m (p_shape Pw)))) (masked m (p_shape Pw)).

Section Sub.
  Variables (Pw : part) (m : list bool).
  Hypothesis HP : part_ok Pw.
  Hypothesis Hm : length m = length (p_shape Pw).

  Lemma s_pos : pos_shape (p_shape Pw). Proof. apply HP. Qed.

  Lemma sub_eq keep shape : (forall c, valid_index (p_shape Pw) c -> keep c = mask_zero m c) -> shape = masked m (p_shape Pw) ->
    sub_partition Pw keep shape = Ok (sub_part m Pw).
  Proof.
    intros Hk ->. unfold sub_partition. rewrite numbered_map by auto.
    replace (filter keep (range_index (p_shape Pw))) with (range_index (masked m (p_shape Pw))).
    2:{ rewrite <- mask_filter by (auto; apply s_pos). apply filter_ext_in. intros c Hc. symmetry. apply Hk. now apply in_range_index. }
    unfold create_cartesian_topology. rewrite map_length.
    rewrite range_index_length by (apply pos_nonneg; apply masked_pos; auto; apply s_pos). now rewrite Z.eqb_refl.
  Qed.

  Lemma sub_ok : part_ok (sub_part m Pw).
  Proof.
    pose proof (masked_pos m (p_shape Pw) Hm s_pos) as Hp. split; [|split; [|split]]; cbn [sub_part p_ranks p_shape].
    - apply NoDup_map_inj; [|apply range_index_nodup]. intros a b Ha Hb E. apply in_range_index in Ha, Hb.
      apply masked_valid in Ha as [Ha _], Hb as [Hb _]; auto using s_pos. eapply wk_inj; eauto.
    - destruct HP as (_ & Hn & _). intros E. apply (f_equal (@length Z)) in E. rewrite masked_length in E by auto.
      destruct (p_shape Pw); [congruence|discriminate].
    - auto.
    - rewrite map_length. apply range_index_length. now apply pos_nonneg.
  Qed.

  Lemma sub_worker idx v : worker_at (sub_part m Pw) idx v <-> worker_at Pw idx v /\ mask_zero m idx = true.
  Proof.
    split.
    - intros [Hi E]. cbn [sub_part p_shape p_ranks] in Hi, E. pose proof Hi as Hi'.
      apply masked_valid in Hi as [Hi Hz]; auto using s_pos. split; auto.
      erewrite map_nth_error in E by (apply range_index_nth_row_major; auto). injection E as <-. now apply wk_worker.
    - intros [Hw Hz]. assert (Hi' : valid_index (masked m (p_shape Pw)) idx) by (apply masked_valid; auto using s_pos; split; auto; apply Hw).
      split; [exact Hi'|]. cbn [sub_part p_shape p_ranks]. erewrite map_nth_error by (apply range_index_nth_row_major; auto).
      now rewrite (worker_wk _ _ _ Hw).
  Qed.

  Lemma sub_active v : In v (p_ranks (sub_part m Pw)) <-> exists idx, worker_at Pw idx v /\ mask_zero m idx = true.
  Proof.
    split.
    - intros H. destruct (worker_at_exists _ v sub_ok H) as [idx Hi]. apply sub_worker in Hi. eauto.
    - intros (idx & H). apply sub_worker in H. eapply worker_at_In; eauto.
  Qed.
End Sub.

(** Broadcasting from such a sub-partition to a larger one: [m'] masks fewer
    dimensions than [m]. *)
Definition unmask (m : list bool) (idx : list Z) : list Z := map2 (fun (b : bool) i => if b then 0 else i) m idx.

Lemma mask_zero_spec m : forall c, length m = length c -> mask_zero m c = true -> unmask m c = c.
Proof.
  induction m as [|b m IH]; intros [|i c] E H; try discriminate; [reflexivity|]. injection E as E.
  unfold mask_zero in H. cbn [combine forallb fst snd] in H. apply andb_true_iff in H as [H1 H2].
  cbn [unmask map2]. f_equal; [destruct b; auto; now apply Z.eqb_eq in H1|]. now apply IH.
Qed.

Lemma unmask_zero m : forall c, length m = length c -> mask_zero m (unmask m c) = true.
Proof.
  induction m as [|b m IH]; intros [|i c] E; try discriminate; [reflexivity|]. injection E as E.
  unfold mask_zero. cbn [unmask map2 combine forallb fst snd]. apply andb_true_iff. split; [now destruct b|]. now apply IH.
Qed.

Lemma unmask_valid m : forall s c, length m = length s -> valid_index s c -> valid_index s (unmask m c).
Proof.
  induction m as [|b m IH]; intros [|n s] c E H; try discriminate; [apply valid_index_nil in H; subst; constructor|].
  apply valid_index_cons_inv in H as (i & t & -> & Hi & Ht). injection E as E. cbn [unmask map2]. constructor; [destruct b; lia|].
  now apply IH.
Qed.

Lemma project_same s : forall c, length s = length c ->
  project s c = map2 (fun a i => if a =? 1 then 0 else i) s c.
Proof. intros c E. unfold project, trailing. now rewrite E, Nat.sub_diag. Qed.

Lemma project_masked m : forall s c, length m = length s -> valid_index s c ->
  project (masked m s) c = unmask m c.
Proof.
  intros s c E H. rewrite project_same by (rewrite masked_length by auto; symmetry; now apply valid_index_length).
  revert s c E H. induction m as [|b m IH]; intros [|n s] c E H; try discriminate; [apply valid_index_nil in H; now subst|].
  apply valid_index_cons_inv in H as (i & t & -> & Hi & Ht). injection E as E. cbn [masked unmask map2].
  fold (masked m s). f_equal; [|now apply IH].
  destruct b; [reflexivity|]. destruct (Z.eqb_spec n 1); lia.
Qed.

Lemma masked_compatible m s : length m = length s -> bc_compatible (masked m s) s.
Proof.
  intros E. split; [rewrite masked_length; auto|]. unfold trailing. rewrite masked_length, Nat.sub_diag by auto. cbn [skipn].
  revert s E. induction m as [|b m IH]; intros [|n s] E; try discriminate; [constructor|]. injection E as E.
  constructor; [destruct b; auto|]. now apply IH.
Qed.

Lemma masked_twice m m' s : Forall2 (fun a b : bool => b = true -> a = true) m m' -> length m = length s ->
  masked m (masked m' s) = masked m s.
Proof.
  intros F. revert s. induction F as [|a b m m' Hab F IH]; intros [|n s] E; try discriminate; [reflexivity|]. injection E as E.
  cbn [masked map2]. fold (masked m s) (masked m' s) (masked m (masked m' s)). rewrite IH by auto. f_equal.
  destruct a, b; auto. specialize (Hab eq_refl). discriminate.
Qed.

Lemma mask_trivial s c : valid_index s c -> mask_zero (map (fun _ => false) s) c = true.
Proof. induction 1 as [|n i s t Hi Ht IH]; [reflexivity|]. unfold mask_zero. cbn [map combine forallb fst snd andb]. exact IH. Qed.

Lemma masked_trivial s : masked (map (fun _ => false) s) s = s.
Proof. induction s as [|n s IH]; [reflexivity|]. cbn [map masked map2]. f_equal. exact IH. Qed.

Section SubBroadcast.
  Context {R : CRing}.
  Variables (Pw : part) (m m' : list bool).
  Hypothesis HP : part_ok Pw.
  Hypothesis Hm : length m = length (p_shape Pw).
  Hypothesis Hm' : length m' = length (p_shape Pw).
  Hypothesis Hsub : Forall2 (fun a b : bool => b = true -> a = true) m m'.
  Variables (dt : Z -> Z) (rg : Z -> bool) (param : Z -> tensor R).
  Hypothesis Hs : forall v, In v (p_ranks Pw) -> nonneg_shape (tshape (param v)).

  Lemma sub_broadcast idx v : worker_at Pw idx v -> mask_zero m' idx = true ->
    exists t, broadcast_layer (sub_part m Pw) (sub_part m' Pw) false false false false dt rg param v = Ok t /\
              teq t (param (wk Pw (unmask m idx))).
  Proof.
    intros Hv Hz.
    assert (H1 : part_ok (sub_part m Pw)) by now apply sub_ok. assert (H2 : part_ok (sub_part m' Pw)) by now apply sub_ok.
    assert (Lv : length m = length idx) by (rewrite Hm; symmetry; apply valid_index_length, Hv).
    destruct (C14_proof R (sub_part m Pw) (sub_part m' Pw) false false false false dt rg param) as [A _].
    - split; [auto|]. split; [auto|]. split; [reflexivity|]. split; [|discriminate]. cbn [flip sub_part p_shape].
      rewrite <- (masked_twice m m') by auto. apply masked_compatible. now rewrite masked_length by auto; rewrite Hm.
    - now left.
    - intros u Hu. split; [|discriminate]. apply Hs.
      destruct Hu as [Hu|Hu]; apply sub_active in Hu as (i & Hu & _); auto; eapply worker_at_In; eauto.
    - apply A.
      + apply sub_active; auto. eauto.
      + exists (unmask m idx), idx. split; [|split].
        * apply sub_worker; auto. split; [|now apply unmask_zero]. apply wk_worker; auto. apply unmask_valid; auto. apply Hv.
        * apply sub_worker; auto.
        * cbn [flip sub_part p_shape]. rewrite <- (masked_twice m m') by auto. symmetry. apply project_masked.
          -- now rewrite masked_length by auto; rewrite Hm.
          -- apply masked_valid; auto; [apply HP|]. split; auto. apply Hv.
  Qed.
End SubBroadcast.

Lemma sub_whole Pw : part_ok Pw -> sub_part (map (fun _ => false) (p_shape Pw)) Pw = Pw.
Proof.
  intros HP. unfold sub_part. rewrite masked_trivial, <- ranks_wk by auto. now destruct Pw.
Qed.

(** ** The partitions of a convolution *)

Definition conv_partitions (Px Py Pw : part) (co ci : Z) (S : list Z) : Prop :=
  part_ok Px /\ part_ok Py /\ part_ok Pw /\ p_root Px = p_root Pw /\ p_root Pw = p_root Py /\
  p_shape Px = 1 :: ci :: S /\ p_shape Py = 1 :: co :: S /\ p_shape Pw = co :: ci :: S.

Section Partitions.
  Variables (Px Py Pw : part) (co ci : Z) (S : list Z).
  Hypothesis HP : conv_partitions Px Py Pw co ci S.

  Lemma c_px : part_ok Px. Proof. apply HP. Qed.
  Lemma c_py : part_ok Py. Proof. apply HP. Qed.
  Lemma c_pw : part_ok Pw. Proof. apply HP. Qed.
  Lemma c_sx : p_shape Px = 1 :: ci :: S. Proof. apply HP. Qed.
  Lemma c_sy : p_shape Py = 1 :: co :: S. Proof. apply HP. Qed.
  Lemma c_sw : p_shape Pw = co :: ci :: S. Proof. apply HP. Qed.
  Lemma c_pos : 0 < co /\ 0 < ci /\ pos_shape S.
  Proof.
    destruct c_pw as (_ & _ & Hp & _). rewrite c_sw in Hp. inversion Hp as [|? ? H1 H2]; subst. inversion H2; subst. auto.
  Qed.

  (** P_y with the input-channel dimension added. *)
  Definition y_part : part := mkpart (p_root Py) (p_ranks Py) (co :: 1 :: S).

  Lemma np_any_same (l : list Z) : np_any_neq l l = false.
  Proof.
    unfold np_any_neq. destruct l as [|a [|b l]]; [reflexivity|cbn; now rewrite Z.eqb_refl|].
    rewrite Nat.eqb_refl. generalize (a :: b :: l) as k. induction k as [|c k IH]; [reflexivity|].
    cbn [combine existsb fst snd]. now rewrite Z.eqb_refl, IH.
  Qed.

  Lemma c_recast_x k v : (k = ChannelConv -> S = repeat 1 (length S)) -> recast_x k Px Pw v = Ok Px.
  Proof.
    intros Hk. unfold recast_x.
    replace (if is_active (p_ranks Px) v then conv_check k 1 (p_shape Px) (p_shape Pw) else None) with (@None conv_error).
    - rewrite c_sx. cbn [insert_at firstn skipn app]. unfold create_cartesian_topology. destruct c_px as (_ & _ & _ & E).
      rewrite c_sx in E. rewrite <- E, Z.eqb_refl. rewrite <- c_sx. now destruct Px.
    - destruct (is_active _ _); auto. unfold conv_check. rewrite c_sx, c_sw. cbn [skipn]. rewrite np_any_same.
      replace (match k with ChannelConv => np_any_neq S (repeat 1 (length S)) | _ => false end) with false.
      + cbn [nth_error]. now rewrite Z.eqb_refl.
      + destruct k; auto. rewrite <- Hk by auto. now rewrite np_any_same.
  Qed.

  Lemma c_recast_y k v : (k = ChannelConv -> S = repeat 1 (length S)) -> recast_y k Py Pw v = Ok y_part.
  Proof.
    intros Hk. unfold recast_y.
    replace (if is_active (p_ranks Py) v then conv_check k 0 (p_shape Py) (p_shape Pw) else None) with (@None conv_error).
    - rewrite c_sy. cbn [insert_at firstn skipn app]. unfold create_cartesian_topology. destruct c_py as (_ & _ & _ & E).
      rewrite c_sy in E. cbn [zprod fold_right] in *. unfold y_part.
      replace (_ =? _) with true; [reflexivity|]. symmetry. apply Z.eqb_eq. lia.
    - destruct (is_active _ _); auto. unfold conv_check. rewrite c_sy, c_sw. cbn [skipn]. rewrite np_any_same.
      replace (match k with ChannelConv => np_any_neq S (repeat 1 (length S)) | _ => false end) with false.
      + cbn [nth_error]. now rewrite Z.eqb_refl.
      + destruct k; auto. rewrite <- Hk by auto. now rewrite np_any_same.
  Qed.

  Lemma y_worker j s v : worker_at y_part (j :: 0 :: s) v <-> worker_at Py (0 :: j :: s) v.
  Proof.
    unfold worker_at, y_part. cbn [p_shape p_ranks]. rewrite c_sy. rewrite !valid_index_cons.
    replace (row_major (co :: 1 :: S) (j :: 0 :: s)) with (row_major (1 :: co :: S) (0 :: j :: s))
      by (cbn [row_major]; unfold zprod; cbn [fold_right]; lia).
    split; intros [H1 H2]; (split; [|exact H2]); intuition lia.
  Qed.

  Lemma y_ok : part_ok y_part.
  Proof.
    destruct c_py as (A & B & C & D). split; [exact A|]. split; [discriminate|]. unfold y_part. cbn [p_shape p_ranks].
    rewrite c_sy in C, D. inversion C as [|? ? C1 C2]; subst. inversion C2; subst.
    split; [repeat (constructor; auto)|]. cbn [zprod fold_right] in *. lia.
  Qed.

  Lemma px_idx idx : valid_index (p_shape Px) idx -> exists i s, idx = 0 :: i :: s /\ 0 <= i < ci /\ valid_index S s.
  Proof.
    rewrite c_sx. intros H. apply valid_index_cons_inv in H as (z & t & -> & Hz & H).
    apply valid_index_cons_inv in H as (i & s & -> & Hi & H). exists i, s. split; auto. f_equal. lia.
  Qed.
  Lemma py_idx idx : valid_index (p_shape Py) idx -> exists j s, idx = 0 :: j :: s /\ 0 <= j < co /\ valid_index S s.
  Proof.
    rewrite c_sy. intros H. apply valid_index_cons_inv in H as (z & t & -> & Hz & H).
    apply valid_index_cons_inv in H as (i & s & -> & Hi & H). exists i, s. split; auto. f_equal. lia.
  Qed.
  Lemma yp_idx idx : valid_index (p_shape y_part) idx -> exists j s, idx = j :: 0 :: s /\ 0 <= j < co /\ valid_index S s.
  Proof.
    intros H. apply valid_index_cons_inv in H as (z & t & -> & Hz & H).
    apply valid_index_cons_inv in H as (i & s & -> & Hi & H). exists z, s. split; auto. do 2 f_equal. lia.
  Qed.
  Lemma pw_idx idx : valid_index (p_shape Pw) idx -> exists j i s, idx = j :: i :: s /\ 0 <= j < co /\ 0 <= i < ci /\ valid_index S s.
  Proof.
    rewrite c_sw. intros H. apply valid_index_cons_inv in H as (z & t & -> & Hz & H).
    apply valid_index_cons_inv in H as (i & s & -> & Hi & H). exists z, i, s. auto.
  Qed.
  Lemma pw_ok j i s : 0 <= j < co -> 0 <= i < ci -> valid_index S s -> valid_index (p_shape Pw) (j :: i :: s).
  Proof. rewrite c_sw. intros. repeat (apply valid_index_cons; split; auto). Qed.

  Lemma trivial_unmask (s : list Z) : unmask (map (fun _ => false) S) s = s \/ length S <> length s.
  Proof.
    destruct (Nat.eq_dec (length S) (length s)) as [E|E]; auto. left. revert s E. clear. induction S as [|n S' IH]; intros [|i s] E; try discriminate; auto.
    injection E as E. cbn [map unmask map2]. f_equal. now apply IH.
  Qed.

  (** The source of worker (j, i, s) is (0, i, s), its destination (j, 0, s). *)
  Lemma c_bc : bc_accepted Px Pw false false false.
  Proof.
    destruct HP as (H1 & H2 & H3 & R1 & R2 & _). split; [auto|]. split; [auto|]. split; [auto|]. split; [|discriminate].
    cbn [flip]. rewrite c_sx, c_sw.
    replace (1 :: ci :: S) with (masked (true :: false :: map (fun _ => false) S) (co :: ci :: S))
      by (cbn [masked map2]; fold (masked (map (fun _ : Z => false) S) S); now rewrite masked_trivial).
    apply masked_compatible. cbn [length]. now rewrite map_length.
  Qed.
  Lemma c_rd : rd_accepted Pw y_part false false false.
  Proof.
    destruct HP as (H1 & H2 & H3 & R1 & R2 & _). split; [auto|]. split; [apply y_ok|]. split; [auto|]. split; [|discriminate].
    cbn [flip]. rewrite c_sw. cbn [y_part p_shape].
    replace (co :: 1 :: S) with (masked (false :: true :: map (fun _ => false) S) (co :: ci :: S))
      by (cbn [masked map2]; fold (masked (map (fun _ : Z => false) S) S); now rewrite masked_trivial).
    apply masked_compatible. cbn [length]. now rewrite map_length.
  Qed.

  Lemma proj_x j i s : 0 <= j < co -> 0 <= i < ci -> valid_index S s -> project (1 :: ci :: S) (j :: i :: s) = 0 :: i :: s.
  Proof.
    intros Hj Hi Hs.
    replace (1 :: ci :: S) with (masked (true :: false :: map (fun _ => false) S) (co :: ci :: S))
      by (cbn [masked map2]; fold (masked (map (fun _ : Z => false) S) S); now rewrite masked_trivial).
    rewrite project_masked.
    - cbn [unmask map2]. do 2 f_equal. destruct (trivial_unmask s) as [E|E]; auto. apply valid_index_length in Hs. congruence.
    - cbn [length]. now rewrite map_length.
    - repeat (apply valid_index_cons; split; auto).
  Qed.
  Lemma proj_y j i s : 0 <= j < co -> 0 <= i < ci -> valid_index S s -> project (co :: 1 :: S) (j :: i :: s) = j :: 0 :: s.
  Proof.
    intros Hj Hi Hs.
    replace (co :: 1 :: S) with (masked (false :: true :: map (fun _ => false) S) (co :: ci :: S))
      by (cbn [masked map2]; fold (masked (map (fun _ : Z => false) S) S); now rewrite masked_trivial).
    rewrite project_masked.
    - cbn [unmask map2]. do 2 f_equal. destruct (trivial_unmask s) as [E|E]; auto. apply valid_index_length in Hs. congruence.
    - cbn [length]. now rewrite map_length.
    - repeat (apply valid_index_cons; split; auto).
  Qed.

  Lemma c_source v u : paired Px Pw false false v u ->
    exists j i s, worker_at Pw (j :: i :: s) u /\ worker_at Px (0 :: i :: s) v /\ 0 <= j < co /\ 0 <= i < ci /\ valid_index S s.
  Proof.
    intros (si & di & Hv & Hu & E). destruct (pw_idx di (proj1 Hu)) as (j & i & s & -> & Hj & Hi & Hs).
    cbn [flip] in E. rewrite c_sx, proj_x in E by auto. subst si. exists j, i, s. auto.
  Qed.
  Lemma c_destination d u : paired y_part Pw false false d u <->
    exists j i s, worker_at Pw (j :: i :: s) u /\ worker_at Py (0 :: j :: s) d.
  Proof.
    split.
    - intros (si & di & Hv & Hu & E). destruct (pw_idx di (proj1 Hu)) as (j & i & s & -> & Hj & Hi & Hs).
      cbn [flip] in E. cbn [y_part p_shape] in E. rewrite proj_y in E by auto. subst si. exists j, i, s. split; auto. now apply y_worker.
    - intros (j & i & s & Hu & Hd). exists (j :: 0 :: s), (j :: i :: s). split; [now apply y_worker|]. split; [auto|].
      cbn [flip y_part p_shape]. destruct (pw_idx _ (proj1 Hu)) as (j' & i' & s' & E & Hj & Hi & Hs). inversion E; subst. now rewrite proj_y.
  Qed.
  Lemma c_contributors j s d : worker_at Py (0 :: j :: s) d ->
    contributors y_part Pw false d (map (fun i => wk Pw (j :: i :: s)) (zrange ci)).
  Proof.
    intros Hd. destruct (py_idx _ (proj1 Hd)) as (j' & s' & E & Hj & Hs). inversion E; subst j' s'. clear E. split.
    - apply NoDup_map_inj; [|apply zrange_nodup]. intros i i' Hi Hi' E. apply in_zrange in Hi, Hi'.
      apply wk_inj in E; try (apply pw_ok); auto; [congruence|apply c_pw].
    - intros u. rewrite in_map_iff, c_destination. split.
      + intros (i & <- & Hi). apply in_zrange in Hi. exists j, i, s. split; auto. apply wk_worker; [apply c_pw|]. now apply pw_ok.
      + intros (j' & i & s' & Hu & Hd'). pose proof (worker_at_fun Py _ _ d c_py Hd Hd') as E. inversion E; subst j' s'.
        destruct (pw_idx _ (proj1 Hu)) as (j' & i' & s' & E' & _ & Hi & _). inversion E'; subst.
        eexists. split; [now apply worker_wk; eauto|]. now apply in_zrange.
  Qed.
End Partitions.
