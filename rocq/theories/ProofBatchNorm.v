(** Sums over a channel: of a local tensor and of all workers. *)

From Verif Require Import Prelude SpecIndex SpecLayout SpecPartition ModelSlicing ProofSlicing ProofDecomposition ModelPartition ProofPartition
  Ring Tensor ModelCollectives ProofCollectives PropCollectives Blocks ModelHaloMixin ProofHaloMixin ModelRepartition ProofRepartition PropRepartition
  ModelConv ProofConv PropExchange ModelBatchNorm SpecBatchNorm.

Lemma upd_length {A} (a : A) : forall k l, length (upd k a l) = length l.
Proof. induction k as [|k IH]; intros [|h l]; cbn [upd length]; auto. Qed.
Lemma upd_nth {A} (a d : A) : forall k l j, (k < length l)%nat -> nth j (upd k a l) d = if Nat.eqb j k then a else nth j l d.
Proof.
  induction k as [|k IH]; intros [|h l] j Hk; cbn [length] in Hk; try lia; destruct j as [|j]; cbn [upd nth Nat.eqb]; auto. apply IH. lia.
Qed.

Section Sums.
  Context {R : CRing}.
  Add Ring R_ring : (rth R).

  (** Summing over one dimension keeps the total. *)
  Lemma sum_dim_total : forall (s : list Z) k (F : list Z -> R), (k < length s)%nat ->
    sumf (indices (upd k 1 s)) (fun i => sumf (zrange (nth k s 0)) (fun a => F (upd k a i))) = sumf (indices s) F.
  Proof.
    induction s as [|n s IH]; intros k F Hk; cbn [length] in Hk; [lia|]. destruct k as [|k]; cbn [upd nth indices].
    - change (zrange 1) with [0]. cbn [flat_map]. rewrite app_nil_r, sumf_map, sumf_flat_map, sumf_exchange.
      apply sumf_ext. intros a _. now rewrite sumf_map.
    - rewrite !sumf_flat_map. apply sumf_ext. intros a _. rewrite !sumf_map. cbn [upd].
      apply (IH k (fun i => F (a :: i))). lia.
  Qed.

  (** A function of the channel is not touched by sums over the other dimensions. *)
  Lemma sum_dim_channel k (t t' : tensor R) (h : Z -> R) : sum_dim k t = Ok t' -> k <> 1%nat ->
    sumf (indices (tshape t')) (fun i => rmul (tat t' i) (h (nth 1 i 0))) =
    sumf (indices (tshape t)) (fun i => rmul (tat t i) (h (nth 1 i 0))).
  Proof.
    unfold sum_dim. destruct (Nat.ltb_spec k (length (tshape t))) as [Hk|]; [|discriminate]. intros E Hk1. inv E. cbn [tshape tat].
    rewrite <- (sum_dim_total (tshape t) k (fun i => rmul (tat t i) (h (nth 1 i 0))) Hk). apply sumf_ext. intros i Hi.
    rewrite <- sumf_mul_r. apply sumf_ext. intros a _. f_equal. f_equal.
    apply in_indices in Hi. apply valid_index_length in Hi. rewrite upd_length in Hi. rewrite upd_nth by lia.
    destruct (Nat.eqb_spec 1 k); [congruence|reflexivity].
  Qed.

  Lemma sums_fold (ks : list nat) : forall t : tensor R, Forall (fun k => (k < length (tshape t))%nat) ks ->
    exists s, fold_left (fun r k => let* x := r in if Nat.eqb k 1 then Ok x else sum_dim k x) ks (Ok t) = Ok s /\
      length (tshape s) = length (tshape t) /\
      (forall k, (k < length (tshape t))%nat ->
         nth k (tshape s) 0 = if existsb (Nat.eqb k) ks && negb (Nat.eqb k 1) then 1 else nth k (tshape t) 0) /\
      forall h : Z -> R, sumf (indices (tshape s)) (fun i => rmul (tat s i) (h (nth 1 i 0))) =
                sumf (indices (tshape t)) (fun i => rmul (tat t i) (h (nth 1 i 0))).
  Proof.
    induction ks as [|k ks IH]; intros t HF; cbn [fold_left].
    - exists t. repeat split; auto.
    - inversion HF as [|? ? Hk HF']; subst. cbn [rbind]. destruct (Nat.eqb_spec k 1) as [->|Hk1].
      + destruct (IH t HF') as (s & E & L1 & N1 & S1). exists s. repeat split; auto.
        intros j Hj. rewrite N1 by auto. cbn [existsb]. destruct (Nat.eqb_spec j 1); [subst; now rewrite !andb_false_r|reflexivity].
      + destruct (sum_dim k t) as [t'|e] eqn:Et.
        2:{ unfold sum_dim in Et. destruct (Nat.ltb_spec k (length (tshape t))); [discriminate|lia]. }
        pose proof Et as Et'. unfold sum_dim in Et'. destruct (Nat.ltb_spec k (length (tshape t))) as [_|]; [|discriminate].
        assert (Es : tshape t' = upd k 1 (tshape t)) by (inv Et'; reflexivity). clear Et'.
        assert (Lt : length (tshape t') = length (tshape t)) by (rewrite Es; apply upd_length).
        destruct (IH t') as (s & E & L1 & N1 & S1); [now rewrite Lt|].
        exists s. split; [exact E|]. split; [congruence|]. split.
        * intros j Hj. rewrite N1 by lia. rewrite Es, upd_nth by auto. cbn [existsb]. destruct (Nat.eqb_spec j k) as [->|].
          -- cbn [orb]. destruct (Nat.eqb_spec k 1); [congruence|]. cbn [negb andb]. destruct (existsb _ ks); reflexivity.
          -- reflexivity.
        * intros h. rewrite S1. now apply (sum_dim_channel k t t').
  Qed.

  (** The index of channel [c] in a tensor with only channels. *)
  Definition pt (d : nat) (c : Z) : list Z := 0 :: c :: repeat 0 d.

  Lemma ones_indices d : indices (repeat 1 d) = [repeat 0 d].
  Proof. induction d as [|d IH]; [reflexivity|]. cbn [repeat indices]. rewrite IH. reflexivity. Qed.
  Lemma channel_indices d n : indices (1 :: n :: repeat 1 d) = map (pt d) (zrange n).
  Proof.
    cbn [indices]. rewrite ones_indices. change (zrange 1) with [0]. cbn [flat_map]. rewrite app_nil_r.
    assert (E : forall l, flat_map (fun i => map (cons i) [repeat 0 d]) l = map (fun i => i :: repeat 0 d) l).
    { intros l. induction l as [|a l IH]; [reflexivity|]. cbn [flat_map map app]. now f_equal. }
    rewrite E, map_map. reflexivity.
  Qed.
  Lemma channel_index d n i : valid_index (1 :: n :: repeat 1 d) i <-> exists c, i = pt d c /\ 0 <= c < n.
  Proof.
    rewrite <- in_indices, channel_indices, in_map_iff. split; intros (c & H1 & H2).
    - exists c. apply in_zrange in H2. auto.
    - exists c. split; [auto|]. now apply in_zrange.
  Qed.

  Lemma local_sums_ok (P : part) d (t : tensor R) : length (p_shape P) = S (S d) -> length (tshape t) = S (S d) ->
    exists s, local_sums P t = Ok s /\ tshape s = 1 :: nth 1 (tshape t) 0 :: repeat 1 d /\
      forall c, 0 <= c < nth 1 (tshape t) 0 -> tat s (pt d c) = sumf (channel_entries (tshape t) c) (tat t).
  Proof.
    intros LP Lt. unfold local_sums.
    destruct (sums_fold (seq 0 (length (p_shape P))) t) as (s & E & Ls & Ns & Ss).
    { apply Forall_forall. intros k Hk. apply in_seq in Hk. lia. }
    exists s. split; [exact E|].
    assert (Es : tshape s = 1 :: nth 1 (tshape t) 0 :: repeat 1 d).
    { apply list_eq_nth with (d := 0); [rewrite Ls, Lt; cbn [length]; now rewrite repeat_length|].
      intros k Hk. rewrite Ls, Lt in Hk. rewrite Ns by lia.
      assert (Ex : existsb (Nat.eqb k) (seq 0 (length (p_shape P))) = true).
      { apply existsb_exists. exists k. split; [apply in_seq; lia|apply Nat.eqb_refl]. }
      rewrite Ex. destruct k as [|[|k]]; cbn [Nat.eqb negb andb nth]; auto.
      symmetry. apply (repeat_spec d). apply nth_In. rewrite repeat_length. lia. }
    split; [exact Es|]. intros c Hc. pose proof (Ss (fun k => if k =? c then rone else rzero)) as S1.
    rewrite Es, channel_indices, sumf_map in S1.
    rewrite (sumf_single _ _ c) in S1.
    - cbn [pt nth] in S1. rewrite Z.eqb_refl in S1. transitivity (rmul (tat s (pt d c)) rone); [ring|].
      rewrite S1. unfold channel_entries. rewrite sumf_filter. apply sumf_ext. intros i _. destruct (_ =? c); ring.
    - apply zrange_nodup.
    - now apply in_zrange.
    - intros k _ Hk. cbn [pt nth]. destruct (Z.eqb_spec k c); [congruence|]. ring.
  Qed.
End Sums.

(** ** The partition of the sums *)

Section Storage.
  Variables (P : part) (d : nat).
  Hypothesis HP : part_ok P.
  Hypothesis LP : length (p_shape P) = S (S d).

  (** All dimensions but the second. *)
  Definition but_channel : list bool := true :: false :: repeat true d.
  Definition storage : part := sub_part but_channel P.

  Lemma st_mask : length but_channel = length (p_shape P).
  Proof. rewrite LP. cbn [but_channel length]. now rewrite repeat_length. Qed.

  Lemma st_shape : p_shape storage = 1 :: nth 1 (p_shape P) 0 :: repeat 1 d.
  Proof.
    unfold storage. cbn [sub_part p_shape]. destruct (p_shape P) as [|a [|c r]] eqn:E; try discriminate. cbn [but_channel masked map2 nth].
    injection LP as Lr. do 2 f_equal. rewrite <- Lr. clear. induction r as [|a r IH]; [reflexivity|]. cbn [length repeat map2]. now f_equal.
  Qed.

  Lemma st_ok : part_ok storage. Proof. apply sub_ok; [exact HP|exact st_mask]. Qed.

  Lemma channels_range n : range_index (1 :: n :: repeat 1 d) = map (pt d) (zrange n).
  Proof.
    assert (E0 : range_index (repeat 1 d) = [repeat 0 d]).
    { clear. induction d as [|d' IH]; [reflexivity|]. cbn [repeat range_index]. rewrite IH. reflexivity. }
    cbn [range_index]. rewrite E0. change (zrange 1) with [0]. cbn [flat_map]. rewrite app_nil_r.
    assert (E : forall l, flat_map (fun i => map (cons i) [repeat 0 d]) l = map (fun i => i :: repeat 0 d) l).
    { intros l. induction l as [|a l IH]; [reflexivity|]. cbn [flat_map map app]. now f_equal. }
    rewrite E, map_map. reflexivity.
  Qed.

  Lemma st_part : sum_partition P = Ok storage.
  Proof.
    unfold sum_partition. rewrite LP. cbn [Nat.ltb Nat.leb].
    assert (Ei : internal_shape (S (S d)) (nth 1 (p_shape P) 0) = p_shape storage) by (rewrite st_shape; reflexivity).
    rewrite Ei.
    assert (Er : incl_ranks (p_ranks P) (storage_workers P) = p_ranks storage).
    { unfold storage_workers, incl_ranks, storage. cbn [sub_part p_ranks]. fold (p_shape storage).
      change (masked but_channel (p_shape P)) with (p_shape storage). rewrite st_shape, channels_range, !map_map. apply map_ext_in. intros c Hc.
      apply in_zrange in Hc. rewrite LP. change (upd 1 c (repeat 0 (S (S d)))) with (pt d c).
      assert (Hv : valid_index (p_shape P) (pt d c)).
      { destruct HP as (_ & _ & Hp & _). destruct (p_shape P) as [|a [|b r]] eqn:E; try discriminate. cbn [nth] in Hc.
        inversion Hp as [|? ? Ha Hp']; subst. inversion Hp' as [|? ? Hb Hp'']; subst. unfold pt.
        apply valid_index_cons. split; [lia|]. apply valid_index_cons. split; [lia|]. injection LP as Lr. rewrite <- Lr. clear - Hp''.
        induction Hp'' as [|n l Hn Hl IH]; [constructor|]. cbn [length repeat]. apply valid_index_cons. split; [lia|auto]. }
      rewrite worker_layout_spec by exact Hv. reflexivity. }
    rewrite Er. destruct st_ok as (_ & _ & _ & E). unfold create_cartesian_topology. rewrite E, Z.eqb_refl.
    unfold storage. reflexivity.
  Qed.

  Lemma st_unmask idx : valid_index (p_shape P) idx -> unmask but_channel idx = pt d (nth 1 idx 0).
  Proof.
    intros Hi. apply valid_index_length in Hi. rewrite LP in Hi. destruct idx as [|a [|c r]]; try discriminate. injection Hi as Lr.
    cbn [but_channel unmask map2 nth pt]. unfold pt. do 2 f_equal. rewrite <- Lr. clear. induction r as [|a r IH]; [reflexivity|].
    cbn [length repeat map2]. now f_equal.
  Qed.

  Lemma st_valid idx : valid_index (p_shape P) idx -> valid_index (p_shape P) (pt d (nth 1 idx 0)).
  Proof. intros Hi. rewrite <- st_unmask by auto. apply unmask_valid; auto. exact st_mask. Qed.

  Lemma st_worker c v : worker_at storage (pt d c) v <-> worker_at P (pt d c) v.
  Proof.
    unfold storage. rewrite sub_worker by (auto; exact st_mask). split; [tauto|]. intros H. split; [exact H|].
    unfold mask_zero, but_channel, pt. cbn [combine forallb fst snd Z.eqb andb]. clear.
    induction d as [|d' IH]; [reflexivity|]. cbn [repeat combine forallb fst snd Z.eqb andb]. exact IH.
  Qed.

  Lemma st_index idx v : worker_at storage idx v -> exists c, idx = pt d c /\ 0 <= c < nth 1 (p_shape P) 0.
  Proof. intros [Hi _]. rewrite st_shape in Hi. now apply channel_index. Qed.

  Lemma st_paired s u : paired storage P false false s u <->
    exists idx, worker_at P idx u /\ s = wk P (pt d (nth 1 idx 0)).
  Proof.
    unfold paired. cbn [flip]. split.
    - intros (si & di & Hs & Hd & E). exists di. split; [exact Hd|].
      unfold storage in E. cbn [sub_part p_shape] in E. rewrite project_masked in E by (try exact st_mask; apply Hd).
      rewrite st_unmask in E by apply Hd. subst si. apply st_worker in Hs. symmetry. now apply worker_wk.
    - intros (idx & Hd & ->). exists (pt d (nth 1 idx 0)), idx. split; [|split; [exact Hd|]].
      + apply st_worker. apply wk_worker; auto. apply st_valid, Hd.
      + unfold storage. cbn [sub_part p_shape]. rewrite project_masked by (try exact st_mask; apply Hd). symmetry. apply st_unmask, Hd.
  Qed.

  Lemma st_compatible : bc_compatible (p_shape storage) (p_shape P).
  Proof. unfold storage. cbn [sub_part p_shape]. apply masked_compatible. exact st_mask. Qed.
  Lemma st_bc : bc_accepted storage P false false false.
  Proof. split; [exact st_ok|]. split; [exact HP|]. split; [reflexivity|]. split; [exact st_compatible|discriminate]. Qed.
  Lemma st_rd : rd_accepted P storage false false false.
  Proof. split; [exact HP|]. split; [exact st_ok|]. split; [reflexivity|]. split; [exact st_compatible|discriminate]. Qed.
  Lemma st_sub v : In v (p_ranks storage) -> In v (p_ranks P).
  Proof.
    intros H. destruct (worker_at_exists storage v st_ok H) as [idx Hi]. destruct (st_index idx v Hi) as (c & -> & _).
    apply st_worker in Hi. eapply worker_at_In; eauto.
  Qed.
End Storage.

(** ** The mean of a channel *)

Section Mean.
  Context {R : CRing}.
  Variable A : arith R.
  Variables (P : part) (d : nat) (L : layout) (dt : Z -> Z) (rg : Z -> bool).
  Hypothesis HP : part_ok P.
  Hypothesis LP : length (p_shape P) = S (S d).
  Hypothesis HL : layout_ok L.
  Hypothesis HW : layout_workers L = p_shape P.

  (** Number and first of the channels at position [c]. *)
  Definition c_num (c : Z) : Z := nth (Z.to_nat c) (nth 1 L []) 0.
  Definition c_off (c : Z) : Z := zsum (firstn (Z.to_nat c) (nth 1 L [])).

  Lemma c_len : length L = S (S d).
  Proof. rewrite <- LP, <- HW. symmetry. apply layout_workers_length. Qed.
  Lemma c_shape idx : valid_index (p_shape P) idx -> nth 1 (block_shape L idx) 0 = c_num (nth 1 idx 0).
  Proof.
    intros Hi. apply valid_index_length in Hi. pose proof c_len. unfold block_shape. rewrite (map2_nth _ _ _ 1 [] 0) by lia. reflexivity.
  Qed.
  Lemma c_lo idx : valid_index (p_shape P) idx -> nth 1 (block_lo L idx) 0 = c_off (nth 1 idx 0).
  Proof.
    intros Hi. apply valid_index_length in Hi. pose proof c_len. unfold block_lo. rewrite (map2_nth _ _ _ 1 [] 0) by lia. reflexivity.
  Qed.
  Lemma c_nonneg : Forall (fun n => 0 <= n) (nth 1 L []).
  Proof. unfold layout_ok in HL. rewrite Forall_forall in HL. apply HL. apply nth_In. pose proof c_len. lia. Qed.
  Lemma c_num_nonneg c : 0 <= c_num c.
  Proof. apply nth_nonneg, c_nonneg. Qed.
  Lemma c_disjoint c c' i i' : 0 <= c -> 0 <= c' -> 0 <= i < c_num c -> 0 <= i' < c_num c' -> c_off c + i = c_off c' + i' -> c = c'.
  Proof.
    unfold c_num, c_off. intros H1 H2 Hi Hi' E.
    assert (Z.to_nat c = Z.to_nat c'); [|lia].
    apply (ext_owner_unique (nth 1 L []) (zsum (firstn (Z.to_nat c) (nth 1 L [])) + i)); [exact c_nonneg| |]; rewrite zsum_firstn_S; lia.
  Qed.

  Variables (G : tensor R) (x : Z -> tensor R).
  Hypothesis HG : holds_blocks P L G x.

  (** The local sums. *)
  Definition own (u : Z) : tensor R := value_or (local_sums P (x u)).

  Lemma idx_nonneg idx : valid_index (p_shape P) idx -> 0 <= nth 1 idx 0 < nth 1 (p_shape P) 0.
  Proof.
    intros H. destruct (p_shape P) as [|a [|b r]]; try discriminate. apply valid_index_cons_inv in H as (i & t & -> & _ & H).
    apply valid_index_cons_inv in H as (j & t' & -> & Hj & _). exact Hj.
  Qed.

  Lemma own_ok idx u : worker_at P idx u -> local_sums P (x u) = Ok (own u) /\
    tshape (own u) = 1 :: c_num (nth 1 idx 0) :: repeat 1 d /\
    forall ch, 0 <= ch < c_num (nth 1 idx 0) ->
      tat (own u) (pt d ch) = sumf (channel_entries (block_shape L idx) ch) (fun p => tat G (vadd (block_lo L idx) p)).
  Proof.
    intros Hu. destruct HG as [_ HB]. destruct (HB idx u Hu) as [Es Et]. cbn [block tshape tat] in Es, Et.
    assert (Hi : valid_index (p_shape P) idx) by apply Hu. pose proof (valid_index_length _ _ Hi) as Hlen.
    destruct (local_sums_ok P d (x u) LP) as (s & E & Ss & Ts).
    { rewrite Es, block_shape_length by (rewrite c_len; lia). exact c_len. }
    unfold own. rewrite E. cbn [value_or]. split; [reflexivity|]. rewrite Es, c_shape in Ss, Ts by auto. split; [exact Ss|].
    intros ch Hch. rewrite Ts by auto. apply sumf_ext. intros p Hp. unfold channel_entries in Hp. apply filter_In in Hp as [Hp _].
    apply in_indices in Hp. apply Et. now rewrite Es.
  Qed.

  Lemma chan_shape_nonneg n : 0 <= n -> nonneg_shape (1 :: n :: repeat 1 d).
  Proof.
    intros. constructor; [lia|]. constructor; [lia|]. apply Forall_forall. intros a Ha. apply repeat_spec in Ha. lia.
  Qed.

  Lemma own_shapes : shapes_ok P (storage P d) true own.
  Proof.
    intros v Hv. assert (Hv' : In v (p_ranks P)) by (destruct Hv; auto; now apply (st_sub P d HP LP)).
    destruct (worker_at_exists P v HP Hv') as [idx Hi]. destruct (own_ok idx v Hi) as (_ & -> & _).
    split; [|intros _; discriminate]. apply chan_shape_nonneg, c_num_nonneg.
  Qed.

  (** The workers that a worker's sums go to. *)
  Lemma entries_split c ch : 0 <= c -> 0 <= ch < c_num c ->
    sumf (channel_entries (layout_shape L) (c_off c + ch)) (tat G) =
    sumf (range_index (p_shape P)) (fun idx => if nth 1 idx 0 =? c
      then sumf (channel_entries (block_shape L idx) ch) (fun p => tat G (vadd (block_lo L idx) p)) else rzero).
  Proof.
    intros Hc Hch. unfold channel_entries at 1. rewrite sumf_filter, (block_sum L HL), HW. apply sumf_ext. intros idx Hidx.
    apply in_range_index in Hidx. pose proof (valid_index_length _ _ Hidx) as Hlen. pose proof c_len as HcL.
    assert (Hn : forall p, valid_index (block_shape L idx) p ->
              nth 1 (vadd (block_lo L idx) p) 0 = c_off (nth 1 idx 0) + nth 1 p 0 /\ 0 <= nth 1 p 0 < c_num (nth 1 idx 0)).
    { intros p Hp. pose proof (valid_index_length _ _ Hp) as Hlp. rewrite block_shape_length in Hlp by lia. split.
      - unfold vadd. rewrite (map2_nth _ _ _ 1 0 0) by (rewrite block_lo_length; lia). now rewrite c_lo.
      - rewrite <- c_shape by auto. rewrite valid_index_nth in Hp. destruct Hp as [_ Hp]. apply Hp.
        rewrite block_shape_length; lia. }
    destruct (Z.eqb_spec (nth 1 idx 0) c) as [Ec|Ec].
    - unfold channel_entries. rewrite sumf_filter. apply sumf_ext. intros p Hp. apply in_indices in Hp.
      destruct (Hn p Hp) as [-> _]. rewrite Ec. destruct (Z.eqb_spec (nth 1 p 0) ch), (Z.eqb_spec (c_off c + nth 1 p 0) (c_off c + ch)); auto; lia.
    - apply sumf_zero. intros p Hp. apply in_indices in Hp. destruct (Hn p Hp) as [-> Hr].
      destruct (Z.eqb_spec (c_off (nth 1 idx 0) + nth 1 p 0) (c_off c + ch)) as [E|]; [|reflexivity]. exfalso. apply Ec.
      apply (c_disjoint _ _ (nth 1 p 0) ch); auto. now apply idx_nonneg.
  Qed.

  Notation sums := (channel_sums P dt rg (storage P d) x).

  Lemma sums_ok : 
    (forall c s, worker_at P (pt d c) s -> exists t, sums s = Ok t /\
       tshape t = 1 :: c_num c :: repeat 1 d /\
       forall ch, 0 <= ch < c_num c -> tat t (pt d ch) = sumf (channel_entries (layout_shape L) (c_off c + ch)) (tat G)) /\
    (forall v, In v (p_ranks P) -> exists t, sums v = Ok t /\ nonneg_shape (tshape t) /\ tshape t <> []).
  Proof.
    destruct (C16_proof P (storage P d) false false false true dt rg (st_rd P d HP LP)) as (dst & D1 & D2 & HC).
    specialize (D2 (or_introl eq_refl)).
    assert (Hd : forall idx u, worker_at P idx u -> dst u = wk P (pt d (nth 1 idx 0))).
    { intros idx u Hu. symmetry. apply D2; [eapply worker_at_In; eauto|]. apply (st_paired P d HP LP). eauto. }
    specialize (HC R own own_shapes).
    destruct HC as (F1 & F2 & _).
    { intros s s' Hs Hs' E. destruct (worker_at_exists P s HP Hs) as [i Hi], (worker_at_exists P s' HP Hs') as [i' Hi'].
      rewrite (Hd i s Hi), (Hd i' s' Hi') in E. apply wk_inj in E; [|exact HP|apply (st_valid P d LP), Hi|apply (st_valid P d LP), Hi'].
      injection E as E. destruct (own_ok i s Hi) as (_ & -> & _), (own_ok i' s' Hi') as (_ & -> & _). now rewrite E. }
    assert (B : forall c s, worker_at P (pt d c) s -> exists t, sums s = Ok t /\
       tshape t = 1 :: c_num c :: repeat 1 d /\
       forall ch, 0 <= ch < c_num c -> tat t (pt d ch) = sumf (channel_entries (layout_shape L) (c_off c + ch)) (tat G)).
    { intros c s Hs. assert (Es : s = wk P (pt d c)) by (symmetry; now apply worker_wk).
      assert (Hst : In s (p_ranks (storage P d))) by (eapply worker_at_In; apply (st_worker P d HP LP); eauto).
      destruct (F1 s Hst) as (t & Et & St & Vt). exists t. split; [exact Et|].
      assert (Sh : tshape t = 1 :: c_num c :: repeat 1 d).
      { rewrite (St s); [|eapply worker_at_In; eauto|rewrite (Hd _ _ Hs); cbn [pt nth]; symmetry; exact Es].
        destruct (own_ok _ _ Hs) as (_ & -> & _). reflexivity. }
      split; [exact Sh|]. intros ch Hch. rewrite Vt by (rewrite Sh; apply channel_index; eauto).
      assert (Hc0 : 0 <= c) by (destruct Hs as [Hi _]; apply idx_nonneg in Hi; exact (proj1 Hi)).
      rewrite entries_split by auto. rewrite sumf_filter, (ranks_wk P HP), sumf_map. apply sumf_ext. intros idx Hidx.
      apply in_range_index in Hidx. pose proof (wk_worker P idx HP Hidx) as Hw. rewrite (Hd _ _ Hw), Es.
      destruct (Z.eqb_spec (nth 1 idx 0) c) as [Ec|Ec].
      - rewrite Ec, Z.eqb_refl. destruct (own_ok _ _ Hw) as (_ & _ & ->); [reflexivity|now rewrite Ec].
      - destruct (Z.eqb_spec (wk P (pt d (nth 1 idx 0))) (wk P (pt d c))) as [E|]; [|reflexivity]. exfalso. apply Ec.
        apply wk_inj in E; auto; [now injection E|now apply (st_valid P d LP)|apply Hs]. }
    split; [exact B|]. intros v Hv. destruct (in_dec Z.eq_dec v (p_ranks (storage P d))) as [Hin|Hn].
    - destruct (worker_at_exists _ v (st_ok P d HP LP) Hin) as [idx Hi]. destruct (st_index P d LP idx v Hi) as (c & -> & _).
      apply (st_worker P d HP LP) in Hi. destruct (B c v Hi) as (t & Et & St & _). exists t. split; [exact Et|]. rewrite St.
      split; [apply chan_shape_nonneg, c_num_nonneg|discriminate].
    - destruct (F2 v Hv Hn) as (t & Et & St). exists t. split; [exact Et|]. rewrite St.
      split; [|discriminate]. destruct (worker_at_exists P v HP Hv) as [idx Hi]. destruct (own_ok idx v Hi) as (_ & So & _).
      unfold batch_of. rewrite So. cbn [hd]. repeat constructor; lia.
  Qed.

  Variable volume : Z -> Z.
  Variable n : Z.
  Hypothesis Hvol : forall u, In u (p_ranks P) -> volume u = n.

  Lemma mean_ok idx v : worker_at P idx v -> exists m, compute_mean A P dt rg (storage P d) volume x v = Ok m /\
    tshape m = 1 :: c_num (nth 1 idx 0) :: repeat 1 d /\
    forall ch, 0 <= ch < c_num (nth 1 idx 0) ->
      tat m (pt d ch) = adiv A (sumf (channel_entries (tshape G) (c_off (nth 1 idx 0) + ch)) (tat G)) (rint n).
  Proof.
    intros Hv. destruct sums_ok as [S1 S2]. destruct (S2 v) as (tv & Etv & _); [eapply worker_at_In; eauto|].
    destruct (own_ok idx v Hv) as (Eo & _). unfold compute_mean. rewrite Eo, Etv. cbn [rbind].
    set (y := fun u => tmap (fun a => adiv A a (rint (volume u))) (value_or (sums u))).
    destruct (C14_proof R (storage P d) P false false false true dt rg y) as (B1 & _).
    - exact (st_bc P d HP LP).
    - now left.
    - intros u Hu. assert (Hu' : In u (p_ranks P)) by (destruct Hu; auto; now apply (st_sub P d HP LP)).
      destruct (S2 u Hu') as (t & Et & Nt & Ne). unfold y. rewrite Et. split; [exact Nt|intros _; exact Ne].
    - destruct (B1 v) as [_ B2]; [eapply worker_at_In; eauto|]. set (s := wk P (pt d (nth 1 idx 0))).
      assert (Hs : worker_at P (pt d (nth 1 idx 0)) s) by (apply wk_worker; auto; apply (st_valid P d LP), Hv).
      destruct (B2 s) as (m & Em & Qs & Qt); [apply (st_paired P d HP LP); eauto|]. exists m. split; [exact Em|].
      destruct (S1 _ _ Hs) as (t & Et & St & Vt). unfold y in Qs, Qt. rewrite Et in Qs, Qt. cbn [value_or tmap tshape tat] in Qs, Qt.
      rewrite St in Qs. split; [exact Qs|]. intros ch Hch. rewrite Qt by (rewrite Qs; apply channel_index; eauto).
      rewrite Vt by auto. destruct HG as [-> _]. rewrite Hvol by (eapply worker_at_In; exact Hs). reflexivity.
  Qed.
End Mean.

(** ** Elementwise operations with a tensor of channels *)

Section Pointwise.
  Context {R : CRing}.

  Lemma common_shape_sym : forall a b, common_shape a b = common_shape b a.
  Proof.
    induction a as [|m a IH]; intros [|n b]; cbn [common_shape]; auto. rewrite IH. destruct (common_shape b a); auto.
    destruct (Z.eqb_spec m n), (Z.eqb_spec n m), (Z.eqb_spec m 1), (Z.eqb_spec n 1); subst; auto; lia.
  Qed.
  Lemma pointwise_sym (f : R -> R -> R) a b : pointwise f a b = pointwise (fun u v => f v u) b a.
  Proof. unfold pointwise. rewrite common_shape_sym. destruct (common_shape _ _); reflexivity. Qed.

  Lemma common_ones : forall r, common_shape r (repeat 1 (length r)) = Some r.
  Proof.
    induction r as [|m r IH]; [reflexivity|]. cbn [length repeat common_shape]. rewrite IH.
    destruct (Z.eqb_spec m 1); subst; reflexivity.
  Qed.
  Lemma common_channels d s : length s = S (S d) -> common_shape s (1 :: nth 1 s 0 :: repeat 1 d) = Some s.
  Proof.
    intros E. destruct s as [|a [|c r]]; try discriminate. injection E as E. cbn [common_shape nth]. rewrite <- E, common_ones, Z.eqb_refl.
    destruct (Z.eqb_spec a 1); subst; reflexivity.
  Qed.
  Lemma stretch_valid : forall s i, valid_index s i -> stretch s i = i.
  Proof.
    induction s as [|n s IH]; intros i Hi; [apply valid_index_nil in Hi; now subst|].
    apply valid_index_cons_inv in Hi as (k & t & -> & Hk & Ht). unfold stretch in *. cbn [map2]. rewrite IH by auto.
    destruct (Z.eqb_spec n 1); f_equal; lia.
  Qed.
  Lemma stretch_channels d s i : length s = S (S d) -> valid_index s i -> stretch (1 :: nth 1 s 0 :: repeat 1 d) i = pt d (nth 1 i 0).
  Proof.
    intros E Hi. destruct s as [|a [|c r]]; try discriminate. injection E as E.
    apply valid_index_cons_inv in Hi as (k & t & -> & Hk & Hi). apply valid_index_cons_inv in Hi as (k' & t' & -> & Hk' & Hi).
    cbn [nth]. unfold stretch, pt. cbn [map2]. f_equal. f_equal; [destruct (Z.eqb_spec c 1); lia|].
    apply valid_index_length in Hi. rewrite E in Hi. clear - Hi. revert t' Hi. induction d as [|d IH]; intros [|k t] Hi; try discriminate; [reflexivity|].
    cbn [repeat map2]. now rewrite IH by auto.
  Qed.

  Lemma pointwise_channels d (f : R -> R -> R) t m : length (tshape t) = S (S d) -> tshape m = 1 :: nth 1 (tshape t) 0 :: repeat 1 d ->
    exists r, pointwise f t m = Ok r /\ tshape r = tshape t /\
      forall i, valid_index (tshape t) i -> tat r i = f (tat t i) (tat m (pt d (nth 1 i 0))).
  Proof.
    intros Lt Em. unfold pointwise. rewrite Em, common_channels by auto. eexists. split; [reflexivity|]. split; [reflexivity|].
    intros i Hi. cbn [tat]. rewrite stretch_valid, (stretch_channels d) by auto. reflexivity.
  Qed.

  Lemma channels_at d e c (f : Z -> R) t ch : teq t (channels d e c f) -> 0 <= ch < nth (Z.to_nat c) e 0 ->
    tat t (pt d ch) = f (zsum (firstn (Z.to_nat c) e) + ch).
  Proof.
    intros [E H] Hch. cbn [channels tshape tat] in E, H. rewrite H; [reflexivity|]. rewrite E. apply channel_index. eauto.
  Qed.
  Lemma channels_intro d e c (f : Z -> R) t : tshape t = 1 :: nth (Z.to_nat c) e 0 :: repeat 1 d ->
    (forall ch, 0 <= ch < nth (Z.to_nat c) e 0 -> tat t (pt d ch) = f (zsum (firstn (Z.to_nat c) e) + ch)) -> teq t (channels d e c f).
  Proof.
    intros E H. split; [exact E|]. intros i Hi. rewrite E in Hi. apply channel_index in Hi as (ch & -> & Hch). now apply H.
  Qed.

  (** Two tensors of channels. *)
  Lemma pointwise_both d e c (g : R -> R -> R) f f' t t' : teq t (channels d e c f) -> teq t' (channels d e c f') ->
    exists r, pointwise g t t' = Ok r /\ teq r (channels d e c (fun k => g (f k) (f' k))).
  Proof.
    intros H H'. pose proof H as [E _]. pose proof H' as [E' _]. cbn [channels tshape] in E, E'.
    destruct (pointwise_channels d g t t') as (r & Er & Sr & Vr).
    - rewrite E. cbn [length]. now rewrite repeat_length.
    - rewrite E'. now rewrite E.
    - exists r. split; [exact Er|]. apply channels_intro; [congruence|]. intros ch Hch.
      rewrite Vr by (rewrite E; apply channel_index; eauto). cbn [pt nth]. fold (pt d ch).
      now rewrite (channels_at d e c f), (channels_at d e c f').
  Qed.
End Pointwise.

(** ** One call *)

Lemma feature_volume_ok (s : list Z) : feature_volume s = channel_volume s.
Proof.
  unfold feature_volume, channel_volume. generalize (nth 0 s 0) as a, (skipn 2 s) as l. intros a l. revert a.
  induction l as [|n l IH]; intros a; cbn [fold_left zprod fold_right]; [cbn; lia|]. rewrite IH. unfold zprod. lia.
Qed.

Section Call.
  Context {R : CRing}.
  Variable A : arith R.
  Variables (P : part) (d : nat) (L : layout) (dt : Z -> Z) (rg : Z -> bool).
  Hypothesis HP : part_ok P.
  Hypothesis LP : length (p_shape P) = S (S d).
  Hypothesis HL : layout_ok L.
  Hypothesis HW : layout_workers L = p_shape P.
  Variables (G : tensor R) (x : Z -> tensor R).
  Hypothesis HG : holds_blocks P L G x.
  Notation e := (nth 1 L []).

  Lemma x_length idx v : worker_at P idx v -> length (tshape (x v)) = S (S d) /\ nth 1 (tshape (x v)) 0 = nth (Z.to_nat (nth 1 idx 0)) e 0.
  Proof.
    intros Hv. destruct HG as [_ HB]. destruct (HB idx v Hv) as [E _]. rewrite E. cbn [block tshape].
    pose proof (c_len P d L LP HW) as HcL. pose proof (valid_index_length _ _ (proj1 Hv)) as Hi.
    split; [rewrite block_shape_length; lia|]. apply (c_shape P d L LP HW). apply Hv.
  Qed.
  Lemma block_channel idx p : valid_index (p_shape P) idx -> valid_index (block_shape L idx) p ->
    nth 1 (vadd (block_lo L idx) p) 0 = c_off L (nth 1 idx 0) + nth 1 p 0 /\ 0 <= nth 1 p 0 < c_num L (nth 1 idx 0).
  Proof.
    intros Hidx Hp. pose proof (valid_index_length _ _ Hidx) as Hlen. pose proof (c_len P d L LP HW) as HcL.
    pose proof (valid_index_length _ _ Hp) as Hlp. rewrite block_shape_length in Hlp by lia. split.
    - unfold vadd. rewrite (map2_nth _ _ _ 1 0 0) by (rewrite block_lo_length; lia). now rewrite (c_lo P d L LP HW).
    - rewrite <- (c_shape P d L LP HW) by auto. rewrite valid_index_nth in Hp. destruct Hp as [_ Hp]. apply Hp.
      rewrite block_shape_length; lia.
  Qed.

  (** A worker's tensor combined with a tensor of channels. *)
  Lemma block_channels (g : R -> R -> R) f idx v t m : worker_at P idx v -> teq t (block L idx G) -> teq m (channels d e (nth 1 idx 0) f) ->
    exists r, pointwise g t m = Ok r /\ teq r (block L idx (mkt (tshape G) (fun i => g (tat G i) (f (nth 1 i 0))))).
  Proof.
    intros Hv [Et Vt] Hm. pose proof Hm as [Em _]. cbn [channels block tshape tat] in *.
    pose proof (c_len P d L LP HW) as HcL. pose proof (valid_index_length _ _ (proj1 Hv)) as Hi.
    destruct (pointwise_channels d g t m) as (r & Er & Sr & Vr).
    - rewrite Et, block_shape_length; lia.
    - rewrite Em, Et, (c_shape P d L LP HW) by apply Hv. reflexivity.
    - exists r. split; [exact Er|]. split; [cbn [block tshape]; congruence|]. intros p Hp. rewrite Sr in Hp. rewrite Vr by auto. cbn [block tat].
      rewrite Vt by auto. rewrite Et in Hp. destruct (block_channel idx p (proj1 Hv) Hp) as [-> Hr].
      rewrite (channels_at d e (nth 1 idx 0) f) by auto. reflexivity.
  Qed.

  Lemma volume_ok idx v : worker_at P idx v -> global_shape P x v = Ok (layout_shape L).
  Proof.
    intros Hv. unfold global_shape. apply (assemble_layout P _ L v idx); auto. intros u i Hu. destruct HG as [_ HB].
    destruct (HB i u Hu) as [E _]. exact E.
  Qed.

  Definition vol (u : Z) : Z := match global_shape P x u with Ok s => feature_volume s | Raise _ => 0 end.
  Lemma vol_ok u : In u (p_ranks P) -> vol u = channel_volume (tshape G).
  Proof.
    intros Hu. destruct (worker_at_exists P u HP Hu) as [idx Hi]. unfold vol. rewrite (volume_ok idx u Hi). rewrite feature_volume_ok.
    destruct HG as [-> _]. reflexivity.
  Qed.

  Notation mean := (compute_mean A P dt rg (storage P d) vol x).

  Lemma mean_channels idx v : worker_at P idx v -> exists m, mean v = Ok m /\ teq m (channels d e (nth 1 idx 0) (channel_mean A G)).
  Proof.
    intros Hv. destruct (mean_ok A P d L dt rg HP LP HL HW G x HG vol _ vol_ok idx v Hv) as (m & Em & Sm & Vm).
    exists m. split; [exact Em|]. apply channels_intro; [exact Sm|]. exact Vm.
  Qed.

  Definition deviations : tensor R := mkt (tshape G) (fun i => let a := rsub (tat G i) (channel_mean A G (nth 1 i 0)) in rmul a a).

  Lemma squares_ok idx v : worker_at P idx v -> exists s, squares x mean v = Ok s /\ teq s (block L idx deviations).
  Proof.
    intros Hv. destruct (mean_channels idx v Hv) as (m & Em & Hm). unfold squares. rewrite Em. cbn [rbind].
    destruct (block_channels rsub _ idx v (x v) m Hv (proj2 HG idx v Hv) Hm) as (r & Er & Hr). rewrite Er. cbn [rbind].
    eexists. split; [reflexivity|]. destruct Hr as [Sr Vr]. split; [exact Sr|]. intros p Hp. cbn [tmap tat tshape] in *. rewrite Vr by auto. reflexivity.
  Qed.

  Lemma var_channels idx v : worker_at P idx v ->
    exists s, compute_var A P dt rg (storage P d) vol x mean v = Ok s /\ teq s (channels d e (nth 1 idx 0) (channel_var A G)).
  Proof.
    intros Hv. destruct (squares_ok idx v Hv) as (q & Eq & _). unfold compute_var. rewrite Eq. cbn [rbind].
    assert (HG2 : holds_blocks P L deviations (fun u => value_or (squares x mean u))).
    { split; [apply (proj1 HG)|]. intros i u Hu. destruct (squares_ok i u Hu) as (s & -> & Hs). exact Hs. }
    destruct (mean_ok A P d L dt rg HP LP HL HW deviations _ HG2 vol _ vol_ok idx v Hv) as (m & Em & Sm & Vm).
    exists m. split; [exact Em|]. apply channels_intro; [exact Sm|]. intros ch Hch. rewrite Vm by exact Hch. unfold channel_var. f_equal.
    apply sumf_ext. intros i Hi. unfold channel_entries in Hi. apply filter_In in Hi as [_ Hi]. apply Z.eqb_eq in Hi.
    cbn [deviations tat]. rewrite Hi. reflexivity.
  Qed.

  (** Values that the workers of the sums hold reach all workers. *)
  Lemma affine_channels (t : Z -> tensor R) f idx v :
    (forall c u, worker_at P (pt d c) u -> teq (t u) (channels d e c f)) ->
    (forall u, In u (p_ranks P) -> nonneg_shape (tshape (t u)) /\ tshape (t u) <> []) -> worker_at P idx v ->
    exists r, broadcast_layer (storage P d) P false false false true dt rg t v = Ok r /\ teq r (channels d e (nth 1 idx 0) f).
  Proof.
    intros Ht Hn Hv. destruct (C14_proof R (storage P d) P false false false true dt rg t) as (B1 & _).
    - exact (st_bc P d HP LP).
    - now left.
    - intros u Hu. destruct (Hn u) as [N1 N2]; [destruct Hu; auto; now apply (st_sub P d HP LP)|]. split; auto.
    - destruct (B1 v) as [_ B2]; [eapply worker_at_In; eauto|]. set (s := wk P (pt d (nth 1 idx 0))).
      assert (Hs : worker_at P (pt d (nth 1 idx 0)) s) by (apply wk_worker; auto; apply (st_valid P d LP), Hv).
      destruct (B2 s) as (m & Em & Hm); [apply (st_paired P d HP LP); eauto|]. exists m. split; [exact Em|].
      eapply teq_trans; [exact Hm|]. now apply Ht.
  Qed.
End Call.
