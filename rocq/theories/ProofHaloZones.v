(** The zones of a halo exchange in global coordinates, and the effect of one
    dimension of the exchange on the tensors of all workers. *)

From Coq Require Import RelationClasses.
From Verif Require Import Prelude SpecIndex SpecLayout SpecPartition SpecHalo ModelSlicing ModelDecomposition
  ModelPartition ProofSlicing ProofDecomposition ProofPartition PropPartition Ring Tensor P2P Rounds
  ModelRepartition ProofRepartition ProofTransfer ModelHaloMixin ProofHaloMixin ModelHaloExchange ProofHaloLinks.

Lemma vadd_vsub' lo l : length lo = length l -> vadd lo (vsub l lo) = l.
Proof.
  revert l. induction lo as [|x lo IH]; intros [|y l] Hl; try easy. unfold vadd, vsub in *. cbn [map2].
  f_equal; [lia|]. apply IH. now inv Hl.
Qed.

Section Zones.
  Variables (P : part) (L : layout) (H : halos).
  Hypothesis HP : part_ok P.
  Hypothesis HL : layout_ok L.
  Hypothesis HW : layout_workers L = p_shape P.
  Hypothesis HH : halos_ok L H.

  Definition ext (j : nat) (x : Z) : Z := nth (Z.to_nat x) (nth j L []) 0.
  Definition lo1 (j : nat) (x : Z) : Z := zsum (firstn (Z.to_nat x) (nth j L [])).
  Definition hl (j : nat) (x : Z) : Z := fst (halo_at (nth j H []) x).
  Definition hr (j : nat) (x : Z) : Z := snd (halo_at (nth j H []) x).
  Definition ls (j : nat) (x : Z) : Z := if 0 <? x then hr j (x - 1) else 0.
  Definition rs (j : nat) (x : Z) : Z := hl j (x + 1).
  Definition np (j : nat) : Z := nth j (p_shape P) 0.

  Lemma H_length : length H = length L.
  Proof. symmetry. apply (Forall2_length _ _ _ HH). Qed.

  Lemma P_length : length (p_shape P) = length L.
  Proof. rewrite <- HW. apply layout_workers_length. Qed.

  Lemma np_length j : (j < length L)%nat -> np j = Z.of_nat (length (nth j L [])).
  Proof. intros. unfold np. rewrite <- HW. now apply workers_nth. Qed.

  Lemma idx_length idx : valid_index (p_shape P) idx -> length idx = length L.
  Proof. intros Hi. apply valid_index_length in Hi. now rewrite P_length in Hi. Qed.

  Lemma idx_bound idx j : valid_index (p_shape P) idx -> (j < length L)%nat -> 0 <= nth j idx 0 < np j.
  Proof. intros Hi Hj. apply valid_index_nth in Hi as [_ Hi]. apply Hi. now rewrite P_length. Qed.

  Lemma halos_nth j : (j < length L)%nat -> dim_halos_ok (nth j L []) (nth j H []).
  Proof.
    intros Hj. destruct (proj1 (Forall2_nth dim_halos_ok L H [] []) HH) as [_ F]. auto.
  Qed.

  Lemma hl_nonneg j x : (j < length L)%nat -> 0 <= hl j x.
  Proof.
    intros Hj. destruct (halos_nth j Hj) as (_ & F & _). unfold hl, halo_at.
    destruct (nth_in_or_default (Z.to_nat x) (nth j H []) (0, 0)) as [Hin| ->]; [|simpl; lia].
    rewrite Forall_forall in F. now apply F.
  Qed.

  Lemma hr_nonneg j x : (j < length L)%nat -> 0 <= hr j x.
  Proof.
    intros Hj. destruct (halos_nth j Hj) as (_ & F & _). unfold hr, halo_at.
    destruct (nth_in_or_default (Z.to_nat x) (nth j H []) (0, 0)) as [Hin| ->]; [|simpl; lia].
    rewrite Forall_forall in F. now apply F.
  Qed.

  Lemma hl_first j : (j < length L)%nat -> hl j 0 = 0.
  Proof. intros Hj. now destruct (halos_nth j Hj) as (_ & _ & F & _). Qed.

  Lemma hr_last j : (j < length L)%nat -> hr j (np j - 1) = 0.
  Proof. intros Hj. rewrite np_length by auto. now destruct (halos_nth j Hj) as (_ & _ & _ & F). Qed.

  Lemma hl_out j x : (j < length L)%nat -> np j <= x -> hl j x = 0.
  Proof.
    intros Hj Hx. rewrite np_length in Hx by auto. destruct (halos_nth j Hj) as (E & _).
    unfold hl, halo_at. rewrite nth_overflow; auto. lia.
  Qed.

  Lemma ext_nonneg j x : 0 <= ext j x.
  Proof.
    unfold ext. apply nth_nonneg. destruct (Nat.lt_ge_cases j (length L)) as [Hj|Hj].
    - unfold layout_ok in HL. rewrite Forall_forall in HL. apply HL. now apply nth_In.
    - rewrite nth_overflow by auto. constructor.
  Qed.

  Lemma lo1_next j x : 0 <= x -> lo1 j (x + 1) = lo1 j x + ext j x.
  Proof.
    intros Hx. unfold lo1, ext. replace (Z.to_nat (x + 1)) with (S (Z.to_nat x)) by lia. apply zsum_firstn_S.
  Qed.

  (** First global index of the local tensor. *)
  Definition base (idx : list Z) : list Z := vsub (block_lo L idx) (left_halo H idx).

  Lemma base_length idx : length idx = length L -> length (base idx) = length L.
  Proof.
    intros Hi. unfold base, vsub, left_halo, recv_plan. rewrite map2_length; rewrite block_lo_length; auto.
    rewrite map_length, map2_length; rewrite H_length; auto.
  Qed.

  Lemma base_nth idx j : length idx = length L -> (j < length L)%nat ->
    nth j (base idx) 0 = lo1 j (nth j idx 0) - hl j (nth j idx 0).
  Proof.
    intros Hi Hj. unfold base, vsub.
    rewrite map2_nth with (da := 0) (db := fst (0, 0)); rewrite ?block_lo_length; auto.
    - unfold left_halo. rewrite map_nth, recv_plan_nth by (rewrite H_length; auto).
      rewrite block_lo_nth by auto. reflexivity.
    - unfold left_halo, recv_plan. rewrite map_length, map2_length; rewrite H_length; auto.
  Qed.

  Lemma padded_length idx : length idx = length L -> length (padded_shape L H idx) = length L.
  Proof.
    intros Hi. unfold padded_shape, vadd, left_halo, right_halo, recv_plan.
    rewrite !map2_length; rewrite ?map2_length; rewrite ?map_length, ?map2_length, ?block_shape_length;
      rewrite ?H_length; auto.
  Qed.

  Lemma padded_nth idx j : length idx = length L -> (j < length L)%nat ->
    nth j (padded_shape L H idx) 0 = hl j (nth j idx 0) + ext j (nth j idx 0) + hr j (nth j idx 0).
  Proof.
    intros Hi Hj. unfold padded_shape, vadd.
    assert (EL : length (left_halo H idx) = length L).
    { unfold left_halo, recv_plan. rewrite map_length, map2_length; rewrite H_length; auto. }
    assert (ER : length (right_halo H idx) = length L).
    { unfold right_halo, recv_plan. rewrite map_length, map2_length; rewrite H_length; auto. }
    assert (ES : length (block_shape L idx) = length L) by (now apply block_shape_length).
    rewrite map2_nth with (da := 0) (db := 0); rewrite ?map2_length; try lia.
    rewrite map2_nth with (da := 0) (db := 0); try lia.
    rewrite block_shape_nth by auto.
    change (nth j (left_halo H idx) 0) with (nth j (map fst (recv_plan H idx)) (fst (0, 0))).
    change (nth j (right_halo H idx) 0) with (nth j (map snd (recv_plan H idx)) (snd (0, 0))).
    rewrite !map_nth, recv_plan_nth by (rewrite H_length; auto). reflexivity.
  Qed.

  (** * Zones *)

  Definition zone_lg (j : nat) (x : Z) : Z * Z := (lo1 j x - hl j x, lo1 j x).
  Definition zone_rg (j : nat) (x : Z) : Z * Z := (lo1 j x + ext j x, lo1 j x + ext j x + hr j x).
  Definition zone_lb (j : nat) (x : Z) : Z * Z := (lo1 j x, lo1 j x + ls j x).
  Definition zone_rb (j : nat) (x : Z) : Z * Z := (lo1 j x + ext j x - rs j x, lo1 j x + ext j x).

  (** The range of zone [own] of dimension [i] along dimension [j]. *)
  Definition range (own : nat -> Z -> Z * Z) (idx : list Z) (i j : nat) : Z * Z :=
    let x := nth j idx 0 in
    if (j <? i)%nat then (lo1 j x - hl j x, lo1 j x + ext j x + hr j x)
    else if (j =? i)%nat then own j x
    else (lo1 j x, lo1 j x + ext j x).

  Definition within (r : Z * Z) (x : Z) : bool := (fst r <=? x) && (x <? snd r).

  Definition zone (own : nat -> Z -> Z * Z) (idx : list Z) (i : nat) (g : list Z) : bool :=
    forallb (fun j => within (range own idx i j) (nth j g 0)) (seq 0 (length L)).

  Definition local_slice (own : nat -> Z -> Z * Z) (idx : list Z) (i : nat) : list slice :=
    vec (length L) (fun j => (fst (range own idx i j) - nth j (base idx) 0, snd (range own idx i j) - nth j (base idx) 0)).

  Definition zone_shape (own : nat -> Z -> Z * Z) (idx : list Z) (i : nat) : list Z :=
    vec (length L) (fun j => snd (range own idx i j) - fst (range own idx i j)).

  Lemma zone_spec own idx i g : zone own idx i g = true <->
    forall j, (j < length L)%nat -> fst (range own idx i j) <= nth j g 0 < snd (range own idx i j).
  Proof.
    unfold zone. rewrite forallb_forall. split; intros Hz j Hj.
    - specialize (Hz j). rewrite in_seq in Hz. specialize (Hz ltac:(lia)). unfold within in Hz. breflect. lia.
    - apply in_seq in Hj. specialize (Hz j ltac:(lia)). unfold within. apply andb_true_iff.
      rewrite Z.leb_le, Z.ltb_lt. lia.
  Qed.

  Lemma map_vec {A B} (f : A -> B) n g : map f (vec n g) = vec n (fun j => f (g j)).
  Proof. unfold vec. apply map_map. Qed.

  Lemma vec_ext {A} n (f g : nat -> A) : (forall j, (j < n)%nat -> f j = g j) -> vec n f = vec n g.
  Proof. intros E. unfold vec. apply map_ext_in. intros j Hj. apply in_seq in Hj. apply E. lia. Qed.

  Lemma local_slice_shape own idx i : compute_nd_slice_shape (local_slice own idx i) = zone_shape own idx i.
  Proof.
    unfold compute_nd_slice_shape, local_slice, zone_shape. rewrite map_vec. apply vec_ext. intros. cbn [fst snd]. lia.
  Qed.

  Lemma zone_shape_pos own idx i g : zone own idx i g = true -> 0 < zprod (zone_shape own idx i).
  Proof.
    intros Hz. rewrite zone_spec in Hz. unfold zone_shape, vec.
    assert (F : Forall (fun n => 0 < n) (map (fun j => snd (range own idx i j) - fst (range own idx i j)) (seq 0 (length L)))).
    { apply Forall_forall. intros n Hn. apply in_map_iff in Hn as (j & <- & Hj). apply in_seq in Hj.
      specialize (Hz j ltac:(lia)). lia. }
    induction F as [|n l Hn F IH]; simpl; [lia|]. change (0 < n * zprod l). apply Z.mul_pos_pos; auto.
  Qed.

  Lemma in_slice_vec (f : nat -> slice) n p : length p = n ->
    in_slice (vec n f) p = forallb (fun j => within (f j) (nth j p 0)) (seq 0 n).
  Proof.
    intros Hp. apply eq_true_iff_eq. unfold in_slice. rewrite vec_length, Hp, Nat.eqb_refl. cbn [andb].
    rewrite !forallb_forall. split; intros F.
    - intros j Hj. apply in_seq in Hj. specialize (F (f j, nth j p 0)). cbn [fst snd] in F. apply F.
      replace (f j) with (nth j (vec n f) (f j)) by (apply vec_nth; lia).
      rewrite <- (combine_nth (vec n f) p j (f j) 0) by (now rewrite vec_length).
      apply nth_In. rewrite combine_length, vec_length. lia.
    - intros [s x] Hin. apply In_nth with (d := ((0, 0), 0)) in Hin as (j & Hj & E).
      rewrite combine_length, vec_length in Hj. rewrite combine_nth in E by (now rewrite vec_length).
      rewrite vec_nth in E by lia. inv E. cbn [fst snd]. apply (F j). apply in_seq. lia.
  Qed.

  Lemma in_local own idx i p : length idx = length L -> length p = length L ->
    in_slice (local_slice own idx i) p = zone own idx i (vadd (base idx) p).
  Proof.
    intros Hi Hp. unfold local_slice. rewrite in_slice_vec by auto.
    apply eq_true_iff_eq. unfold zone. rewrite !forallb_forall.
    split; intros F j Hj; specialize (F j Hj); apply in_seq in Hj; unfold within in *; cbn [fst snd] in *;
      unfold vadd in *; rewrite map2_nth with (da := 0) (db := 0) in * by (rewrite base_length by auto; lia);
      breflect; apply andb_true_iff; rewrite Z.leb_le, Z.ltb_lt; lia.
  Qed.

  (** * Neighbours *)

  Definition prev (i : nat) (idx : list Z) : list Z := upd i (nth i idx 0 - 1) idx.
  Definition next (i : nat) (idx : list Z) : list Z := upd i (nth i idx 0 + 1) idx.

  Lemma prev_valid i idx : valid_index (p_shape P) idx -> (i < length L)%nat -> 0 < nth i idx 0 ->
    valid_index (p_shape P) (prev i idx).
  Proof.
    intros Hi Hl Hx. apply valid_index_upd; auto. pose proof (idx_bound idx i Hi Hl). unfold np in *. lia.
  Qed.

  Lemma next_valid i idx : valid_index (p_shape P) idx -> (i < length L)%nat -> nth i idx 0 + 1 < np i ->
    valid_index (p_shape P) (next i idx).
  Proof.
    intros Hi Hl Hx. apply valid_index_upd; auto. pose proof (idx_bound idx i Hi Hl). unfold np in *. lia.
  Qed.

  Lemma upd_twice i (a b : Z) l : upd i a (upd i b l) = upd i a l.
  Proof. revert i. induction l as [|x l IH]; intros [|i]; simpl; auto. now rewrite IH. Qed.

  Lemma prev_next i idx : (i < length idx)%nat -> prev i (next i idx) = idx.
  Proof.
    intros Hi. unfold prev, next. rewrite upd_nth_eq by auto. rewrite upd_twice.
    replace (nth i idx 0 + 1 - 1) with (nth i idx 0) by lia. now apply upd_same_nth.
  Qed.

  Lemma next_prev i idx : (i < length idx)%nat -> next i (prev i idx) = idx.
  Proof.
    intros Hi. unfold prev, next. rewrite upd_nth_eq by auto. rewrite upd_twice.
    replace (nth i idx 0 - 1 + 1) with (nth i idx 0) by lia. now apply upd_same_nth.
  Qed.

  (** What a worker sends to the right is the left ghost of its neighbour. *)
  Lemma range_prev idx i j : length idx = length L -> (i < length L)%nat -> 0 < nth i idx 0 ->
    range zone_rb (prev i idx) i j = range zone_lg idx i j.
  Proof.
    intros Hl Hi Hx. unfold range, prev. destruct (Nat.eq_dec i j) as [<-|N].
    - rewrite upd_nth_eq by lia. rewrite Nat.ltb_irrefl, Nat.eqb_refl. unfold zone_rb, zone_lg, rs.
      rewrite <- lo1_next by lia. replace (nth i idx 0 - 1 + 1) with (nth i idx 0) by lia. reflexivity.
    - rewrite upd_nth_neq by auto. destruct (Nat.eqb_spec j i); [lia|]. reflexivity.
  Qed.

  Lemma range_next idx i j : length idx = length L -> (i < length L)%nat -> 0 <= nth i idx 0 ->
    range zone_lb (next i idx) i j = range zone_rg idx i j.
  Proof.
    intros Hl Hi Hx. unfold range, next. destruct (Nat.eq_dec i j) as [<-|N].
    - rewrite upd_nth_eq by lia. rewrite Nat.ltb_irrefl, Nat.eqb_refl. unfold zone_lb, zone_rg, ls.
      rewrite lo1_next by lia. destruct (Z.ltb_spec 0 (nth i idx 0 + 1)); [|lia].
      now replace (nth i idx 0 + 1 - 1) with (nth i idx 0) by lia.
    - rewrite upd_nth_neq by auto. destruct (Nat.eqb_spec j i); [lia|]. reflexivity.
  Qed.

  Lemma range_shape_ext o1 i1 o2 i2 i : (forall j, range o1 i1 i j = range o2 i2 i j) ->
    zone_shape o1 i1 i = zone_shape o2 i2 i.
  Proof. intros E. unfold zone_shape. apply vec_ext. intros. now rewrite E. Qed.

  Lemma range_zone_ext o1 i1 o2 i2 i g : (forall j, range o1 i1 i j = range o2 i2 i j) ->
    zone o1 i1 i g = zone o2 i2 i g.
  Proof.
    intros E. unfold zone. induction (seq 0 (length L)) as [|j l IH]; auto. cbn [forallb]. now rewrite E, IH.
  Qed.

  (** A non-empty ghost zone has a neighbour. *)
  Lemma zone_own own idx i g : (i < length L)%nat -> zone own idx i g = true ->
    fst (own i (nth i idx 0)) <= nth i g 0 < snd (own i (nth i idx 0)).
  Proof.
    intros Hi Hz. rewrite zone_spec in Hz. specialize (Hz i Hi). unfold range in Hz.
    now rewrite Nat.ltb_irrefl, Nat.eqb_refl in Hz.
  Qed.

  Lemma hl_has_prev idx i : valid_index (p_shape P) idx -> (i < length L)%nat -> 0 < hl i (nth i idx 0) -> 0 < nth i idx 0.
  Proof.
    intros Hv Hi Hh. pose proof (idx_bound idx i Hv Hi). destruct (Z.eq_dec (nth i idx 0) 0) as [E|E]; [|lia].
    rewrite E, hl_first in Hh by auto. lia.
  Qed.

  Lemma hr_has_next idx i : valid_index (p_shape P) idx -> (i < length L)%nat -> 0 < hr i (nth i idx 0) ->
    nth i idx 0 + 1 < np i.
  Proof.
    intros Hv Hi Hh. pose proof (idx_bound idx i Hv Hi). destruct (Z.eq_dec (nth i idx 0) (np i - 1)) as [E|E]; [|lia].
    rewrite E, hr_last in Hh by auto. lia.
  Qed.

  Lemma ls_has_prev idx i : 0 < ls i (nth i idx 0) -> 0 < nth i idx 0.
  Proof. unfold ls. destruct (Z.ltb_spec 0 (nth i idx 0)); lia. Qed.

  Lemma rs_has_next idx i : valid_index (p_shape P) idx -> (i < length L)%nat -> 0 < rs i (nth i idx 0) ->
    nth i idx 0 + 1 < np i.
  Proof.
    intros Hv Hi Hh. unfold rs in Hh. destruct (Z_lt_ge_dec (nth i idx 0 + 1) (np i)); auto.
    rewrite hl_out in Hh by (auto; lia). lia.
  Qed.

  Definition box (idx g : list Z) : bool := zone zone_lg idx (length L) g.

  Lemma box_spec idx g : box idx g = true <->
    forall j, (j < length L)%nat -> lo1 j (nth j idx 0) - hl j (nth j idx 0) <= nth j g 0 <
      lo1 j (nth j idx 0) + ext j (nth j idx 0) + hr j (nth j idx 0).
  Proof.
    unfold box. rewrite zone_spec. split; intros Hz j Hj; specialize (Hz j Hj); unfold range in *;
      (destruct (Nat.ltb_spec j (length L)); [|lia]); exact Hz.
  Qed.

  (** * The links of the layer *)

  Variable shape : Z -> list Z.
  Variables recv send : Z -> list (Z * Z).
  Hypothesis Hshape : forall idx v, worker_at P idx v -> shape v = padded_shape L H idx.
  Hypothesis Hrecv : forall idx v, worker_at P idx v -> recv v = recv_plan H idx.
  Hypothesis Hsend : forall idx v, worker_at P idx v -> send v = send_plan H idx.

  Definition hd (idx : list Z) (i : nat) : hdim := halo_dim P shape recv send (wk P idx) i.

  Lemma recv_nth idx i : valid_index (p_shape P) idx -> (i < length L)%nat ->
    nth i (recv (wk P idx)) (0, 0) = (hl i (nth i idx 0), hr i (nth i idx 0)).
  Proof.
    intros Hv Hi. rewrite (Hrecv idx) by (now apply wk_worker).
    rewrite recv_plan_nth by (rewrite H_length; auto; symmetry; now apply idx_length).
    unfold hl, hr. now destruct (halo_at _ _).
  Qed.

  Lemma send_nth idx i : valid_index (p_shape P) idx -> (i < length L)%nat ->
    nth i (send (wk P idx)) (0, 0) = (ls i (nth i idx 0), rs i (nth i idx 0)).
  Proof.
    intros Hv Hi. rewrite (Hsend idx) by (now apply wk_worker).
    rewrite send_plan_nth by (rewrite H_length; auto; symmetry; now apply idx_length). reflexivity.
  Qed.

  Lemma slices_of idx i : valid_index (p_shape P) idx -> (i < length L)%nat ->
    d_sl (hd idx i) = mkhs (local_slice zone_lb idx i) (local_slice zone_lg idx i)
                           (local_slice zone_rb idx i) (local_slice zone_rg idx i).
  Proof.
    intros Hv Hi. unfold hd, halo_dim. cbn [d_sl]. unfold assemble_halo_slices.
    rewrite (Hshape idx) by (now apply wk_worker). rewrite padded_length by (now apply idx_length).
    rewrite vec_nth by auto. unfold local_slice.
    f_equal; apply vec_ext; intros j Hj; rewrite ?padded_nth, ?recv_nth, ?send_nth, ?base_nth by (auto using idx_length);
      cbn [fst snd]; unfold range, zone_lb, zone_lg, zone_rb, zone_rg;
      destruct (j <? i)%nat; [|destruct (j =? i)%nat | |destruct (j =? i)%nat| |destruct (j =? i)%nat| |destruct (j =? i)%nat];
      cbn [fst snd]; f_equal; lia.
  Qed.

  Lemma neighbors_of idx i : valid_index (p_shape P) idx -> (i < length L)%nat ->
    nth i (halo_neighbors P (wk P idx)) (proc_null, proc_null) =
    (if nth i idx 0 =? 0 then proc_null else wk P (prev i idx),
     if nth i idx 0 =? np i - 1 then proc_null else wk P (next i idx)).
  Proof.
    intros Hv Hi. pose proof (wk_worker P idx HP Hv) as Hw. unfold halo_neighbors.
    rewrite (rank_in_row_major P idx) by auto. rewrite (neighbor_ranks_spec P idx (wk P idx)) by auto.
    rewrite map_map. rewrite nth_map_seq by (rewrite P_length; auto). cbn [fst snd]. unfold np.
    destruct (nth i idx 0 =? 0), (nth i idx 0 =? nth i (p_shape P) 0 - 1); reflexivity.
  Qed.

  Lemma left_of idx i : valid_index (p_shape P) idx -> (i < length L)%nat -> 0 < nth i idx 0 ->
    d_left (hd idx i) = wk P (prev i idx).
  Proof.
    intros Hv Hi Hx. unfold hd, halo_dim. cbn [d_left]. rewrite neighbors_of by auto. cbn [fst].
    destruct (Z.eqb_spec (nth i idx 0) 0); [lia|]. reflexivity.
  Qed.

  Lemma right_of idx i : valid_index (p_shape P) idx -> (i < length L)%nat -> nth i idx 0 + 1 < np i ->
    d_right (hd idx i) = wk P (next i idx).
  Proof.
    intros Hv Hi Hx. unfold hd, halo_dim. cbn [d_right]. rewrite neighbors_of by auto. cbn [snd].
    destruct (Z.eqb_spec (nth i idx 0) (np i - 1)); [lia|]. reflexivity.
  Qed.

  Definition on (size : Z) (own : nat -> Z -> Z * Z) (idx : list Z) (i : nat) : bool :=
    (0 <? size) && (0 <? zprod (zone_shape own idx i)).

  Lemma flags_of idx i : valid_index (p_shape P) idx -> (i < length L)%nat ->
    d_lb (hd idx i) = on (ls i (nth i idx 0)) zone_lb idx i /\
    d_lg (hd idx i) = on (hl i (nth i idx 0)) zone_lg idx i /\
    d_rb (hd idx i) = on (rs i (nth i idx 0)) zone_rb idx i /\
    d_rg (hd idx i) = on (hr i (nth i idx 0)) zone_rg idx i.
  Proof.
    intros Hv Hi. pose proof (slices_of idx i Hv Hi) as E. unfold hd, halo_dim in *. cbn [d_lb d_lg d_rb d_rg d_sl] in *.
    rewrite E. cbn [lbs lgs rbs rgs]. rewrite recv_nth, send_nth by auto. cbn [fst snd].
    unfold has_buffer. now rewrite !local_slice_shape.
  Qed.

  (** The flags agree on both sides, with the shapes. *)
  Lemma left_agrees idx i : valid_index (p_shape P) idx -> (i < length L)%nat -> 0 < nth i idx 0 ->
    d_rb (hd (prev i idx) i) = d_lg (hd idx i) /\ d_rg (hd (prev i idx) i) = d_lb (hd idx i) /\
    zone_shape zone_rb (prev i idx) i = zone_shape zone_lg idx i /\
    zone_shape zone_rg (prev i idx) i = zone_shape zone_lb idx i.
  Proof.
    intros Hv Hi Hx. pose proof (idx_length idx Hv) as Hlen.
    pose proof (prev_valid i idx Hv Hi Hx) as Hpv. pose proof (idx_length _ Hpv) as Hplen.
    destruct (flags_of idx i Hv Hi) as (F1 & F2 & F3 & F4).
    destruct (flags_of (prev i idx) i Hpv Hi) as (G1 & G2 & G3 & G4).
    assert (E1 : zone_shape zone_rb (prev i idx) i = zone_shape zone_lg idx i).
    { apply range_shape_ext. intros j. now apply range_prev. }
    assert (E2 : zone_shape zone_rg (prev i idx) i = zone_shape zone_lb idx i).
    { apply range_shape_ext. intros j. rewrite <- (range_next (prev i idx)) by
        (auto; unfold prev; rewrite upd_nth_eq by lia; lia). now rewrite next_prev by lia. }
    rewrite F1, F2, G3, G4. unfold on. rewrite E1, E2. split; [|split; auto].
    - unfold rs, prev. rewrite upd_nth_eq by lia. now replace (nth i idx 0 - 1 + 1) with (nth i idx 0) by lia.
    - unfold ls, prev. rewrite upd_nth_eq by lia. destruct (Z.ltb_spec 0 (nth i idx 0)); [|lia]. reflexivity.
  Qed.

  Lemma right_agrees idx i : valid_index (p_shape P) idx -> (i < length L)%nat -> nth i idx 0 + 1 < np i ->
    d_lb (hd (next i idx) i) = d_rg (hd idx i) /\ d_lg (hd (next i idx) i) = d_rb (hd idx i) /\
    zone_shape zone_lb (next i idx) i = zone_shape zone_rg idx i /\
    zone_shape zone_lg (next i idx) i = zone_shape zone_rb idx i.
  Proof.
    intros Hv Hi Hx. pose proof (idx_length idx Hv) as Hlen.
    pose proof (next_valid i idx Hv Hi Hx) as Hnv. pose proof (idx_bound idx i Hv Hi).
    destruct (left_agrees (next i idx) i Hnv Hi) as (A1 & A2 & A3 & A4).
    { unfold next. rewrite upd_nth_eq by lia. lia. }
    rewrite prev_next in * by lia. auto.
  Qed.

  Lemma on_lg idx i : valid_index (p_shape P) idx -> (i < length L)%nat -> d_lg (hd idx i) = true -> 0 < nth i idx 0.
  Proof.
    intros Hv Hi E. destruct (flags_of idx i Hv Hi) as (_ & F & _). rewrite F in E. unfold on in E. breflect.
    now apply hl_has_prev.
  Qed.

  Lemma on_lb idx i : valid_index (p_shape P) idx -> (i < length L)%nat -> d_lb (hd idx i) = true -> 0 < nth i idx 0.
  Proof.
    intros Hv Hi E. destruct (flags_of idx i Hv Hi) as (F & _). rewrite F in E. unfold on in E. breflect.
    now apply ls_has_prev with (i := i).
  Qed.

  Lemma on_rg idx i : valid_index (p_shape P) idx -> (i < length L)%nat -> d_rg (hd idx i) = true -> nth i idx 0 + 1 < np i.
  Proof.
    intros Hv Hi E. destruct (flags_of idx i Hv Hi) as (_ & _ & _ & F). rewrite F in E. unfold on in E. breflect.
    now apply hr_has_next.
  Qed.

  Lemma on_rb idx i : valid_index (p_shape P) idx -> (i < length L)%nat -> d_rb (hd idx i) = true -> nth i idx 0 + 1 < np i.
  Proof.
    intros Hv Hi E. destruct (flags_of idx i Hv Hi) as (_ & _ & F & _). rewrite F in E. unfold on in E. breflect.
    now apply rs_has_next.
  Qed.

  (** A worker with a neighbour is not alone. *)
  Lemma not_alone idx idx' : valid_index (p_shape P) idx -> valid_index (p_shape P) idx' -> idx <> idx' ->
    takes_part P (wk P idx) = true.
  Proof.
    intros Hv Hv' N. unfold takes_part. apply andb_true_iff. split.
    - apply index_active_some with idx. now apply index_wk.
    - apply negb_true_iff, Nat.eqb_neq. intros E. apply N. apply (row_major_inj (p_shape P)); auto.
      destruct HP as (_ & _ & _ & E'). pose proof (row_major_bound _ _ Hv). pose proof (row_major_bound _ _ Hv').
      rewrite <- E', E in *. lia.
  Qed.

  Lemma prev_neq i idx : (i < length idx)%nat -> prev i idx <> idx.
  Proof.
    intros Hi E. assert (nth i (prev i idx) 0 = nth i idx 0) by now rewrite E.
    unfold prev in H0. rewrite upd_nth_eq in H0 by auto. lia.
  Qed.

  Lemma next_neq i idx : (i < length idx)%nat -> next i idx <> idx.
  Proof.
    intros Hi E. assert (nth i (next i idx) 0 = nth i idx 0) by now rewrite E.
    unfold next in H0. rewrite upd_nth_eq in H0 by auto. lia.
  Qed.

  Lemma part_prev idx i : valid_index (p_shape P) idx -> (i < length L)%nat -> 0 < nth i idx 0 ->
    takes_part P (wk P idx) = true /\ takes_part P (wk P (prev i idx)) = true.
  Proof.
    intros Hv Hi Hx. pose proof (prev_valid i idx Hv Hi Hx). pose proof (idx_length idx Hv).
    pose proof (prev_neq i idx ltac:(lia)).
    split; [apply (not_alone idx (prev i idx))|apply (not_alone (prev i idx) idx)]; auto.
  Qed.

  Lemma part_next idx i : valid_index (p_shape P) idx -> (i < length L)%nat -> nth i idx 0 + 1 < np i ->
    takes_part P (wk P idx) = true /\ takes_part P (wk P (next i idx)) = true.
  Proof.
    intros Hv Hi Hx. pose proof (next_valid i idx Hv Hi Hx). pose proof (idx_length idx Hv).
    pose proof (next_neq i idx ltac:(lia)).
    split; [apply (not_alone idx (next i idx))|apply (not_alone (next i idx) idx)]; auto.
  Qed.

  Lemma part_index v : takes_part P v = true -> exists idx, valid_index (p_shape P) idx /\ v = wk P idx.
  Proof.
    unfold takes_part. intros E. apply andb_true_iff in E as [E _].
    destruct (index_in P v) as [idx|] eqn:Ei.
    - apply index_in_valid in Ei as [H1 H2]; auto. eauto.
    - apply index_active in Ei. congruence.
  Qed.

  (** A zone with a point in it has a buffer. *)
  Lemma zone_on own size flag idx i g : (i < length L)%nat -> zone own idx i g = true ->
    flag = on size own idx i -> snd (own i (nth i idx 0)) - fst (own i (nth i idx 0)) = size -> flag = true.
  Proof.
    intros Hi Hz -> Hs. unfold on. apply andb_true_iff. split; apply Z.ltb_lt.
    - pose proof (zone_own own idx i g Hi Hz). lia.
    - now apply zone_shape_pos with g.
  Qed.

  Lemma zone_flags idx i g : valid_index (p_shape P) idx -> (i < length L)%nat ->
    (zone zone_lb idx i g = true -> d_lb (hd idx i) = true) /\
    (zone zone_lg idx i g = true -> d_lg (hd idx i) = true) /\
    (zone zone_rb idx i g = true -> d_rb (hd idx i) = true) /\
    (zone zone_rg idx i g = true -> d_rg (hd idx i) = true).
  Proof.
    intros Hv Hi. destruct (flags_of idx i Hv Hi) as (F1 & F2 & F3 & F4).
    split; [|split; [|split]]; intros Hz; eapply zone_on; eauto; cbn [zone_lb zone_lg zone_rb zone_rg fst snd]; lia.
  Qed.

  (** * The rounds *)

  Context {R : CRing}.
  Notation tensor := (tensor R).
  Notation hst := (@hst R).
  Add Ring R_ring : (rth R).
  Variable world : list Z.
  Hypothesis Hworld : forall v, In v (p_ranks P) -> In v world.

  Definition D (i : nat) (v : Z) : hdim := halo_dim P shape recv send v i.

  Lemma left_link idx i : valid_index (p_shape P) idx -> (i < length L)%nat -> 0 < nth i idx 0 ->
    d_left (hd idx i) = wk P (prev i idx) /\ In (wk P (prev i idx)) world /\
    takes_part P (wk P (prev i idx)) = true /\ d_right (hd (prev i idx) i) = wk P idx.
  Proof.
    intros Hv Hi Hx. pose proof (prev_valid i idx Hv Hi Hx) as Hp. pose proof (idx_length idx Hv).
    split; [|split; [|split]].
    - now apply left_of.
    - apply Hworld. now apply wk_In.
    - now apply part_prev.
    - rewrite right_of; auto; [now rewrite next_prev by lia|].
      unfold prev. rewrite upd_nth_eq by lia. pose proof (idx_bound idx i Hv Hi). lia.
  Qed.

  Lemma right_link idx i : valid_index (p_shape P) idx -> (i < length L)%nat -> nth i idx 0 + 1 < np i ->
    d_right (hd idx i) = wk P (next i idx) /\ In (wk P (next i idx)) world /\
    takes_part P (wk P (next i idx)) = true /\ d_left (hd (next i idx) i) = wk P idx.
  Proof.
    intros Hv Hi Hx. pose proof (next_valid i idx Hv Hi Hx) as Hn. pose proof (idx_length idx Hv).
    pose proof (idx_bound idx i Hv Hi).
    split; [|split; [|split]].
    - now apply right_of.
    - apply Hworld. now apply wk_In.
    - now apply part_next.
    - rewrite left_of; auto; [now rewrite prev_next by lia|].
      unfold next. rewrite upd_nth_eq by lia. lia.
  Qed.

  Section Dimension.
    Variable i : nat.
    Hypothesis Hi : (i < length L)%nat.

    (** Both sides of a link, whichever zones it connects. *)
    Lemma pair_left (a b : hdim -> link) :
      (forall idx, valid_index (p_shape P) idx -> k_on (a (hd idx i)) = true -> 0 < nth i idx 0) ->
      (forall idx, valid_index (p_shape P) idx -> 0 < nth i idx 0 -> k_on (a (hd idx i)) = k_on (b (hd (prev i idx) i))) ->
      (forall d, k_peer (a d) = d_left d) -> (forall d, k_peer (b d) = d_right d) ->
      paired world (takes_part P) (fun v => a (D i v)) (fun v => b (D i v)).
    Proof.
      intros H1 H2 H3 H4 v Hv Ht Ho. cbv zeta. destruct (part_index v Ht) as (idx & Hx & ->).
      change (D i (wk P idx)) with (hd idx i) in *.
      specialize (H1 idx Hx Ho). rewrite H2 in Ho by auto.
      destruct (left_link idx i Hx Hi H1) as (E1 & E2 & E3 & E4). rewrite H3, E1.
      change (D i (wk P (prev i idx))) with (hd (prev i idx) i). rewrite H4. auto.
    Qed.

    Lemma pair_right (a b : hdim -> link) :
      (forall idx, valid_index (p_shape P) idx -> k_on (a (hd idx i)) = true -> nth i idx 0 + 1 < np i) ->
      (forall idx, valid_index (p_shape P) idx -> nth i idx 0 + 1 < np i -> k_on (a (hd idx i)) = k_on (b (hd (next i idx) i))) ->
      (forall d, k_peer (a d) = d_right d) -> (forall d, k_peer (b d) = d_left d) ->
      paired world (takes_part P) (fun v => a (D i v)) (fun v => b (D i v)).
    Proof.
      intros H1 H2 H3 H4 v Hv Ht Ho. cbv zeta. destruct (part_index v Ht) as (idx & Hx & ->).
      change (D i (wk P idx)) with (hd idx i) in *.
      specialize (H1 idx Hx Ho). rewrite H2 in Ho by auto.
      destruct (right_link idx i Hx Hi H1) as (E1 & E2 & E3 & E4). rewrite H3, E1.
      change (D i (wk P (next i idx))) with (hd (next i idx) i). rewrite H4. auto.
    Qed.

    Lemma pairs :
      paired world (takes_part P) (fun v => fwd_lrecv (D i v)) (fun v => fwd_rsend (D i v)) /\
      paired world (takes_part P) (fun v => fwd_rsend (D i v)) (fun v => fwd_lrecv (D i v)) /\
      paired world (takes_part P) (fun v => fwd_rrecv (D i v)) (fun v => fwd_lsend (D i v)) /\
      paired world (takes_part P) (fun v => fwd_lsend (D i v)) (fun v => fwd_rrecv (D i v)) /\
      paired world (takes_part P) (fun v => bwd_lrecv (D i v)) (fun v => bwd_rsend (D i v)) /\
      paired world (takes_part P) (fun v => bwd_rsend (D i v)) (fun v => bwd_lrecv (D i v)) /\
      paired world (takes_part P) (fun v => bwd_rrecv (D i v)) (fun v => bwd_lsend (D i v)) /\
      paired world (takes_part P) (fun v => bwd_lsend (D i v)) (fun v => bwd_rrecv (D i v)).
    Proof.
      assert (A : forall idx, valid_index (p_shape P) idx -> 0 < nth i idx 0 ->
        d_rb (hd (prev i idx) i) = d_lg (hd idx i) /\ d_rg (hd (prev i idx) i) = d_lb (hd idx i)).
      { intros idx Hv Hx. destruct (left_agrees idx i Hv Hi Hx) as (A1 & A2 & _). auto. }
      assert (B : forall idx, valid_index (p_shape P) idx -> nth i idx 0 + 1 < np i ->
        d_lb (hd (next i idx) i) = d_rg (hd idx i) /\ d_lg (hd (next i idx) i) = d_rb (hd idx i)).
      { intros idx Hv Hx. destruct (right_agrees idx i Hv Hi Hx) as (A1 & A2 & _). auto. }
      split; [|split; [|split; [|split; [|split; [|split; [|split]]]]]].
      - apply (pair_left fwd_lrecv fwd_rsend); auto; intros idx Hv; [now apply on_lg|]. intros Hx. symmetry. now apply A.
      - apply (pair_right fwd_rsend fwd_lrecv); auto; intros idx Hv; [now apply on_rb|]. intros Hx. symmetry. now apply B.
      - apply (pair_right fwd_rrecv fwd_lsend); auto; intros idx Hv; [now apply on_rg|]. intros Hx. symmetry. now apply B.
      - apply (pair_left fwd_lsend fwd_rrecv); auto; intros idx Hv; [now apply on_lb|]. intros Hx. symmetry. now apply A.
      - apply (pair_left bwd_lrecv bwd_rsend); auto; intros idx Hv; [now apply on_lb|]. intros Hx. symmetry. now apply A.
      - apply (pair_right bwd_rsend bwd_lrecv); auto; intros idx Hv; [now apply on_rg|]. intros Hx. symmetry. now apply B.
      - apply (pair_right bwd_rrecv bwd_lsend); auto; intros idx Hv; [now apply on_rb|]. intros Hx. symmetry. now apply B.
      - apply (pair_left bwd_lsend bwd_rrecv); auto; intros idx Hv; [now apply on_lg|]. intros Hx. symmetry. now apply A.
    Qed.

    (** The slices at both ends have the same shape. *)
    Lemma link_shapes v : takes_part P v = true ->
      let size sl := compute_nd_slice_shape sl in
      (d_lg (D i v) = true -> size (lgs (d_sl (D i v))) = size (rbs (d_sl (D i (d_left (D i v)))))) /\
      (d_lb (D i v) = true -> size (lbs (d_sl (D i v))) = size (rgs (d_sl (D i (d_left (D i v)))))) /\
      (d_rg (D i v) = true -> size (rgs (d_sl (D i v))) = size (lbs (d_sl (D i (d_right (D i v)))))) /\
      (d_rb (D i v) = true -> size (rbs (d_sl (D i v))) = size (lgs (d_sl (D i (d_right (D i v)))))).
    Proof.
      intros Ht size. destruct (part_index v Ht) as (idx & Hx & ->). change (D i (wk P idx)) with (hd idx i).
      unfold size. split; [|split; [|split]]; intros E.
      - assert (X : 0 < nth i idx 0) by (now apply on_lg). destruct (left_link idx i Hx Hi X) as (-> & _).
        change (D i (wk P (prev i idx))) with (hd (prev i idx) i). rewrite !slices_of by auto using prev_valid.
        cbn [lbs lgs rbs rgs]. rewrite !local_slice_shape. symmetry. now apply left_agrees.
      - assert (X : 0 < nth i idx 0) by (now apply on_lb). destruct (left_link idx i Hx Hi X) as (-> & _).
        change (D i (wk P (prev i idx))) with (hd (prev i idx) i). rewrite !slices_of by auto using prev_valid.
        cbn [lbs lgs rbs rgs]. rewrite !local_slice_shape. symmetry. now apply left_agrees.
      - assert (X : nth i idx 0 + 1 < np i) by (now apply on_rg). destruct (right_link idx i Hx Hi X) as (-> & _).
        change (D i (wk P (next i idx))) with (hd (next i idx) i). rewrite !slices_of by auto using next_valid.
        cbn [lbs lgs rbs rgs]. rewrite !local_slice_shape. symmetry. now apply right_agrees.
      - assert (X : nth i idx 0 + 1 < np i) by (now apply on_rb). destruct (right_link idx i Hx Hi X) as (-> & _).
        change (D i (wk P (next i idx))) with (hd (next i idx) i). rewrite !slices_of by auto using next_valid.
        cbn [lbs lgs rbs rgs]. rewrite !local_slice_shape. symmetry. now apply right_agrees.
    Qed.

    Lemma ghosts_disjoint idx g : zone zone_lg idx i g = true -> zone zone_rg idx i g = true -> False.
    Proof.
      intros H1 H2. apply zone_own in H1; auto. apply zone_own in H2; auto.
      pose proof (ext_nonneg i (nth i idx 0)). cbn [zone_lg zone_rg fst snd] in *. lia.
    Qed.

    Lemma bad_length own idx p : length p <> length L -> in_slice (local_slice own idx i) p = false.
    Proof.
      intros Hp. unfold in_slice, local_slice. rewrite vec_length.
      replace (Nat.eqb (length L) (length p)) with false; auto. symmetry. apply Nat.eqb_neq. congruence.
    Qed.

    Lemma local_disjoint idx p : valid_index (p_shape P) idx ->
      in_slice (local_slice zone_lg idx i) p = true -> in_slice (local_slice zone_rg idx i) p = true -> False.
    Proof.
      intros Hv H1 H2. pose proof (idx_length idx Hv). destruct (Nat.eq_dec (length p) (length L)) as [E|E].
      - rewrite in_local in H1, H2 by auto. eapply ghosts_disjoint; eauto.
      - rewrite bad_length in H1 by auto. discriminate.
    Qed.

    Lemma forward_ok : round_ok world eqH steq (forward_round (R := R) P shape recv send i).
    Proof.
      destruct pairs as (P1 & P2 & P3 & P4 & _).
      apply (link_round_ok world fwd_pack fwd_unpack (takes_part P) (fun v => fwd_lrecv (D i v))
        (fun v => fwd_rrecv (D i v)) (fun v => fwd_lsend (D i v)) (fun v => fwd_rsend (D i v))); auto.
      - intros sl s s' []. constructor; simpl; auto. now apply read_proper.
      - intros sl s s' []. constructor; simpl; auto. now apply read_proper.
      - intros. now apply write_proper.
      - intros v m m' t _ Ht. destruct (part_index v Ht) as (idx & Hv & ->).
        change (D i (wk P idx)) with (hd idx i). unfold fwd_lrecv, fwd_rrecv, fwd_unpack. cbn [k_sl].
        rewrite slices_of by auto. cbn [lgs rgs]. unfold write_slice.
        destruct (zlist_eqb (tshape m) _), (zlist_eqb (tshape m') _); try (split; reflexivity).
        split; simpl; auto. intros p.
        destruct (in_slice (local_slice zone_lg idx i) p) eqn:E1; auto.
        destruct (in_slice (local_slice zone_rg idx i) p) eqn:E2; auto.
        exfalso. eapply local_disjoint; eauto.
    Qed.

    Lemma zero_proper (t t' : tensor) sl : steq t t' -> steq (zero_slice t sl) (zero_slice t' sl).
    Proof. intros [H1 H2]. split; simpl; auto. intros p. now destruct (in_slice sl p). Qed.

    Lemma add_proper (t t' : tensor) sl m m' : steq t t' -> steq m m' -> steq (add_slice t sl m) (add_slice t' sl m').
    Proof.
      intros [H1 H2] [H3 H4]. unfold add_slice. rewrite H3. destruct (zlist_eqb _ _); [|now split].
      split; simpl; auto. intros p. rewrite H2, H4. now destruct (in_slice sl p).
    Qed.

    Lemma backward_ok : round_ok world eqH steq (backward_round (R := R) P shape recv send i).
    Proof.
      destruct pairs as (_ & _ & _ & _ & P1 & P2 & P3 & P4).
      apply (link_round_ok world bwd_pack bwd_unpack (takes_part P) (fun v => bwd_lrecv (D i v))
        (fun v => bwd_rrecv (D i v)) (fun v => bwd_lsend (D i v)) (fun v => bwd_rsend (D i v))); auto.
      - intros sl s s' []. constructor; simpl; auto using read_proper, zero_proper.
      - intros sl s s' []. constructor; simpl; auto using read_proper, zero_proper.
      - intros. now apply add_proper.
      - intros v m m' t _ Ht. unfold bwd_unpack, add_slice.
        destruct (zlist_eqb (tshape m) _), (zlist_eqb (tshape m') _); try (split; reflexivity).
        split; cbn [tat tshape]; auto. intros p.
        destruct (in_slice (k_sl (bwd_lrecv (D i v))) p); destruct (in_slice (k_sl (bwd_rrecv (D i v))) p); auto. ring.
    Qed.

    (** * The effect of a round *)

    Definition F (S0 : Z -> hst) (idx g : list Z) : R := tat (h_t (S0 (wk P idx))) (vsub g (base idx)).

    Lemma transfer_point o1 i1 o2 i2 g : length i1 = length L -> length i2 = length L -> length g = length L ->
      (forall j, range o1 i1 i j = range o2 i2 i j) ->
      map2 (fun s k => fst s + k) (local_slice o1 i1 i)
        (map2 (fun s k => k - fst s) (local_slice o2 i2 i) (vsub g (base i2))) = vsub g (base i1).
    Proof.
      intros H1 H2 Hg E. unfold vsub, local_slice.
      pose proof (base_length i1 H1) as B1. pose proof (base_length i2 H2) as B2.
      assert (L2 : length (map2 Z.sub g (base i2)) = length L) by (rewrite map2_length; lia).
      assert (L1 : length (map2 Z.sub g (base i1)) = length L) by (rewrite map2_length; lia).
      assert (L3 : length (map2 (fun (s : slice) k => k - fst s)
        (vec (length L) (fun j => (fst (range o2 i2 i j) - nth j (base i2) 0, snd (range o2 i2 i j) - nth j (base i2) 0)))
        (map2 Z.sub g (base i2))) = length L) by (rewrite map2_length; rewrite vec_length; lia).
      apply list_eq_nth with (d := 0).
      - rewrite L1, map2_length; rewrite vec_length; auto.
      - intros j Hj. rewrite map2_length, vec_length in Hj by (rewrite vec_length; auto).
        rewrite map2_nth with (da := (0, 0)) (db := 0) by (rewrite vec_length; auto).
        rewrite map2_nth with (da := (0, 0)) (db := 0) by (rewrite vec_length; auto).
        rewrite !map2_nth with (da := 0) (db := 0) by lia.
        rewrite !vec_nth by auto. cbn [fst snd]. rewrite E. lia.
    Qed.

    Lemma in_local_global own idx g : length idx = length L -> length g = length L ->
      in_slice (local_slice own idx i) (vsub g (base idx)) = zone own idx i g.
    Proof.
      intros H1 H2. pose proof (base_length idx H1).
      rewrite in_local; auto.
      - rewrite vadd_vsub' by lia. reflexivity.
      - unfold vsub. rewrite map2_length; lia.
    Qed.

    Lemma alone idx own g : valid_index (p_shape P) idx -> takes_part P (wk P idx) = false ->
      In own [zone_lb; zone_lg; zone_rb; zone_rg] -> zone own idx i g = false.
    Proof.
      intros Hv Ht Ho. destruct (zone own idx i g) eqn:E; auto. exfalso.
      destruct (zone_flags idx i g Hv Hi) as (F1 & F2 & F3 & F4).
      assert (C : 0 < nth i idx 0 \/ nth i idx 0 + 1 < np i).
      { destruct Ho as [<-|[<-|[<-|[<-|[]]]]].
        - left. apply on_lb; auto.
        - left. apply on_lg; auto.
        - right. apply on_rb; auto.
        - right. apply on_rg; auto. }
      destruct C as [C|C]; [destruct (part_prev idx i Hv Hi C)|destruct (part_next idx i Hv Hi C)]; congruence.
    Qed.

    Notation fwd_res := (link_result (R := R) fwd_pack fwd_unpack (takes_part P) (fun v => fwd_lrecv (D i v))
        (fun v => fwd_rrecv (D i v)) (fun v => fwd_lsend (D i v)) (fun v => fwd_rsend (D i v))).
    Notation fwd_packed := (packed (R := R) fwd_pack (fun v => fwd_lsend (D i v)) (fun v => fwd_rsend (D i v))).

    Lemma fwd_packed_t v s : h_t (fwd_packed v s) = h_t s.
    Proof. unfold packed. destruct (k_on (fwd_lsend (D i v))), (k_on (fwd_rsend (D i v))); reflexivity. Qed.

    Lemma fwd_packed_hist v s : h_hist (fwd_packed v s) = h_hist s.
    Proof. unfold packed. destruct (k_on (fwd_lsend (D i v))), (k_on (fwd_rsend (D i v))); reflexivity. Qed.

    Lemma fwd_packed_l v s : d_lb (D i v) = true -> h_l (fwd_packed v s) = read_slice (h_t s) (lbs (d_sl (D i v))).
    Proof.
      intros E. unfold packed, fwd_lsend, fwd_rsend. cbn [k_on k_sl]. rewrite E. destruct (d_rb (D i v)); reflexivity.
    Qed.

    Lemma fwd_packed_r v s : d_rb (D i v) = true -> h_r (fwd_packed v s) = read_slice (h_t s) (rbs (d_sl (D i v))).
    Proof.
      intros E. unfold packed, fwd_lsend, fwd_rsend. cbn [k_on k_sl]. rewrite E. destruct (d_lb (D i v)); reflexivity.
    Qed.

    Lemma write_at t sl (t' : tensor) sl' p : compute_nd_slice_shape sl' = compute_nd_slice_shape sl ->
      tat (write_slice t sl (read_slice t' sl')) p =
      if in_slice sl p then tat t' (map2 (fun s k => fst s + k) sl' (map2 (fun s k => k - fst s) sl p)) else tat t p.
    Proof.
      intros E. unfold write_slice. cbn [read_slice tshape]. rewrite E, zlist_eqb_refl. reflexivity.
    Qed.

    Lemma write_shape t sl (m : tensor) : tshape (write_slice t sl m) = tshape t.
    Proof. unfold write_slice. destruct (zlist_eqb _ _); reflexivity. Qed.

    Lemma fwd_step S0 idx : valid_index (p_shape P) idx ->
      tshape (h_t (fwd_res S0 (wk P idx))) = tshape (h_t (S0 (wk P idx))) /\
      h_hist (fwd_res S0 (wk P idx)) = h_hist (S0 (wk P idx)) /\
      forall g, length g = length L ->
        tat (h_t (fwd_res S0 (wk P idx))) (vsub g (base idx)) =
        if zone zone_rg idx i g then F S0 (next i idx) g
        else if zone zone_lg idx i g then F S0 (prev i idx) g
        else F S0 idx g.
    Proof.
      intros Hv. pose proof (idx_length idx Hv) as Hl. unfold link_result.
      destruct (takes_part P (wk P idx)) eqn:Et.
      2:{ split; [auto|]. split; [auto|]. intros g Hg.
          rewrite !(alone idx) by (auto; cbn; auto). reflexivity. }
      cbv zeta. change (D i (wk P idx)) with (hd idx i).
      destruct (flags_of idx i Hv Hi) as (_ & F2 & _ & F4).
      unfold fwd_lrecv, fwd_rrecv. cbn [k_on k_sl k_peer].
      assert (EL : d_lg (hd idx i) = true ->
        h_r (fwd_packed (d_left (hd idx i)) (S0 (d_left (hd idx i)))) =
        read_slice (h_t (S0 (wk P (prev i idx)))) (local_slice zone_rb (prev i idx) i)).
      { intros E. pose proof (on_lg idx i Hv Hi E) as Hx. destruct (left_link idx i Hv Hi Hx) as (-> & _).
        destruct (left_agrees idx i Hv Hi Hx) as (A1 & _). pose proof (prev_valid i idx Hv Hi Hx).
        rewrite fwd_packed_r; change (D i (wk P (prev i idx))) with (hd (prev i idx) i).
        - now rewrite slices_of by auto.
        - congruence. }
      assert (ER : d_rg (hd idx i) = true ->
        h_l (fwd_packed (d_right (hd idx i)) (S0 (d_right (hd idx i)))) =
        read_slice (h_t (S0 (wk P (next i idx)))) (local_slice zone_lb (next i idx) i)).
      { intros E. pose proof (on_rg idx i Hv Hi E) as Hx. destruct (right_link idx i Hv Hi Hx) as (-> & _).
        destruct (right_agrees idx i Hv Hi Hx) as (A1 & _). pose proof (next_valid i idx Hv Hi Hx).
        rewrite fwd_packed_l; change (D i (wk P (next i idx))) with (hd (next i idx) i).
        - now rewrite slices_of by auto.
        - congruence. }
      remember (h_r (fwd_packed (d_left (hd idx i)) (S0 (d_left (hd idx i))))) as ml.
      remember (h_l (fwd_packed (d_right (hd idx i)) (S0 (d_right (hd idx i))))) as mr.
      rewrite slices_of by auto. cbn [lgs rgs].
      split; [|split].
      - destruct (d_lg (hd idx i)), (d_rg (hd idx i)); cbn [set_t h_t]; unfold fwd_unpack;
          rewrite ?write_shape, ?fwd_packed_t; reflexivity.
      - destruct (d_lg (hd idx i)), (d_rg (hd idx i)); cbn [set_t h_hist]; now rewrite ?fwd_packed_hist.
      - intros g Hg. destruct (zone_flags idx i g Hv Hi) as (_ & Z1 & _ & Z2).
        assert (GL : forall t : tensor, d_lg (hd idx i) = true ->
          tat (fwd_unpack (local_slice zone_lg idx i) ml t) (vsub g (base idx)) =
          if zone zone_lg idx i g then F S0 (prev i idx) g else tat t (vsub g (base idx))).
        { intros t E. pose proof (on_lg idx i Hv Hi E) as Hx. pose proof (prev_valid i idx Hv Hi Hx) as Hp.
          pose proof (idx_length _ Hp). rewrite EL by auto. unfold fwd_unpack.
          destruct (left_agrees idx i Hv Hi Hx) as (_ & _ & A & _).
          rewrite write_at by (now rewrite !local_slice_shape).
          rewrite in_local_global by auto.
          rewrite transfer_point by (auto; intros; apply range_prev; auto). reflexivity. }
        assert (GR : forall t : tensor, d_rg (hd idx i) = true ->
          tat (fwd_unpack (local_slice zone_rg idx i) mr t) (vsub g (base idx)) =
          if zone zone_rg idx i g then F S0 (next i idx) g else tat t (vsub g (base idx))).
        { intros t E. pose proof (on_rg idx i Hv Hi E) as Hx. pose proof (next_valid i idx Hv Hi Hx) as Hp.
          pose proof (idx_length _ Hp). rewrite ER by auto. unfold fwd_unpack.
          destruct (right_agrees idx i Hv Hi Hx) as (_ & _ & A & _). pose proof (idx_bound idx i Hv Hi).
          rewrite write_at by (now rewrite !local_slice_shape).
          rewrite in_local_global by auto.
          rewrite transfer_point by (auto; intros; apply range_next; auto; lia). reflexivity. }
        destruct (d_lg (hd idx i)) eqn:E1, (d_rg (hd idx i)) eqn:E2; cbn [set_t h_t];
          rewrite ?GR by auto; rewrite ?GL by auto; rewrite ?fwd_packed_t; unfold F at 3;
          destruct (zone zone_rg idx i g) eqn:Zr; destruct (zone zone_lg idx i g) eqn:Zl; try reflexivity;
          try (specialize (Z1 eq_refl); discriminate); try (specialize (Z2 eq_refl); discriminate).
    Qed.

    Notation bwd_res := (link_result (R := R) bwd_pack bwd_unpack (takes_part P) (fun v => bwd_lrecv (D i v))
        (fun v => bwd_rrecv (D i v)) (fun v => bwd_lsend (D i v)) (fun v => bwd_rsend (D i v))).
    Notation bwd_packed := (packed (R := R) bwd_pack (fun v => bwd_lsend (D i v)) (fun v => bwd_rsend (D i v))).

    Definition without_left (idx : list Z) (t : tensor) : tensor :=
      if d_lg (hd idx i) then zero_slice t (local_slice zone_lg idx i) else t.

    Lemma without_left_shape idx t : tshape (without_left idx t) = tshape t.
    Proof. unfold without_left. destruct (d_lg (hd idx i)); reflexivity. Qed.

    Lemma without_left_at idx t g : valid_index (p_shape P) idx -> length g = length L ->
      tat (without_left idx t) (vsub g (base idx)) =
      if zone zone_lg idx i g then rzero else tat t (vsub g (base idx)).
    Proof.
      intros Hv Hg. unfold without_left. destruct (zone_flags idx i g Hv Hi) as (_ & Z1 & _ & _).
      destruct (d_lg (hd idx i)).
      - cbn [zero_slice tat]. rewrite in_local_global by (auto using idx_length). reflexivity.
      - destruct (zone zone_lg idx i g); auto. specialize (Z1 eq_refl). discriminate.
    Qed.

    Lemma bwd_packed_t idx s : valid_index (p_shape P) idx ->
      h_t (bwd_packed (wk P idx) s) =
      if d_rg (hd idx i) then zero_slice (without_left idx (h_t s)) (local_slice zone_rg idx i)
      else without_left idx (h_t s).
    Proof.
      intros Hv. unfold packed, bwd_lsend, bwd_rsend, without_left. cbn [k_on k_sl].
      change (D i (wk P idx)) with (hd idx i). rewrite slices_of by auto. cbn [lgs rgs].
      destruct (d_lg (hd idx i)), (d_rg (hd idx i)); reflexivity.
    Qed.

    Lemma bwd_packed_hist v s : h_hist (bwd_packed v s) = h_hist s.
    Proof. unfold packed. destruct (k_on (bwd_lsend (D i v))), (k_on (bwd_rsend (D i v))); reflexivity. Qed.

    Lemma bwd_packed_l idx s : valid_index (p_shape P) idx -> d_lg (hd idx i) = true ->
      h_l (bwd_packed (wk P idx) s) = read_slice (h_t s) (local_slice zone_lg idx i).
    Proof.
      intros Hv E. unfold packed, bwd_lsend, bwd_rsend. cbn [k_on k_sl].
      change (D i (wk P idx)) with (hd idx i). rewrite E, slices_of by auto. cbn [lgs rgs].
      destruct (d_rg (hd idx i)); reflexivity.
    Qed.

    Lemma bwd_packed_r idx s : valid_index (p_shape P) idx -> d_rg (hd idx i) = true ->
      h_r (bwd_packed (wk P idx) s) = read_slice (without_left idx (h_t s)) (local_slice zone_rg idx i).
    Proof.
      intros Hv E. unfold packed, bwd_lsend, bwd_rsend, without_left. cbn [k_on k_sl].
      change (D i (wk P idx)) with (hd idx i). rewrite E, slices_of by auto. cbn [lgs rgs].
      destruct (d_lg (hd idx i)); reflexivity.
    Qed.

    Lemma add_at t sl (t' : tensor) sl' p : compute_nd_slice_shape sl' = compute_nd_slice_shape sl ->
      tat (add_slice t sl (read_slice t' sl')) p =
      if in_slice sl p then radd (tat t p) (tat t' (map2 (fun s k => fst s + k) sl' (map2 (fun s k => k - fst s) sl p)))
      else tat t p.
    Proof.
      intros E. unfold add_slice. cbn [read_slice tshape]. rewrite E, zlist_eqb_refl. reflexivity.
    Qed.

    Lemma add_shape t sl (m : tensor) : tshape (add_slice t sl m) = tshape t.
    Proof. unfold add_slice. destruct (zlist_eqb _ _); reflexivity. Qed.

    Lemma zone_lb_prev idx g : valid_index (p_shape P) idx -> 0 < nth i idx 0 ->
      zone zone_rg (prev i idx) i g = zone zone_lb idx i g.
    Proof.
      intros Hv Hx. pose proof (idx_length idx Hv). pose proof (prev_valid i idx Hv Hi Hx) as Hp.
      pose proof (idx_length _ Hp). apply range_zone_ext. intros j.
      rewrite <- (range_next (prev i idx)) by (auto; unfold prev; rewrite upd_nth_eq by lia; lia).
      now rewrite next_prev by lia.
    Qed.

    Lemma bwd_step S0 idx : valid_index (p_shape P) idx ->
      tshape (h_t (bwd_res S0 (wk P idx))) = tshape (h_t (S0 (wk P idx))) /\
      h_hist (bwd_res S0 (wk P idx)) = h_hist (S0 (wk P idx)) /\
      forall g, length g = length L ->
        tat (h_t (bwd_res S0 (wk P idx))) (vsub g (base idx)) =
        radd (radd (if zone zone_lg idx i g || zone zone_rg idx i g then rzero else F S0 idx g)
                   (if zone zone_lb idx i g then F S0 (prev i idx) g else rzero))
             (if zone zone_rb idx i g then F S0 (next i idx) g else rzero).
    Proof.
      intros Hv. pose proof (idx_length idx Hv) as Hl. unfold link_result.
      destruct (takes_part P (wk P idx)) eqn:Et.
      2:{ split; [auto|]. split; [auto|]. intros g Hg.
          rewrite !(alone idx) by (auto; cbn; auto). cbn [orb]. unfold F. ring. }
      cbv zeta. change (D i (wk P idx)) with (hd idx i).
      unfold bwd_lrecv, bwd_rrecv. cbn [k_on k_sl k_peer].
      assert (EL : d_lb (hd idx i) = true ->
        h_r (bwd_packed (d_left (hd idx i)) (S0 (d_left (hd idx i)))) =
        read_slice (without_left (prev i idx) (h_t (S0 (wk P (prev i idx))))) (local_slice zone_rg (prev i idx) i)).
      { intros E. pose proof (on_lb idx i Hv Hi E) as Hx. destruct (left_link idx i Hv Hi Hx) as (-> & _).
        destruct (left_agrees idx i Hv Hi Hx) as (_ & A1 & _). pose proof (prev_valid i idx Hv Hi Hx).
        apply bwd_packed_r; auto. congruence. }
      assert (ER : d_rb (hd idx i) = true ->
        h_l (bwd_packed (d_right (hd idx i)) (S0 (d_right (hd idx i)))) =
        read_slice (h_t (S0 (wk P (next i idx)))) (local_slice zone_lg (next i idx) i)).
      { intros E. pose proof (on_rb idx i Hv Hi E) as Hx. destruct (right_link idx i Hv Hi Hx) as (-> & _).
        destruct (right_agrees idx i Hv Hi Hx) as (_ & A1 & _). pose proof (next_valid i idx Hv Hi Hx).
        apply bwd_packed_l; auto. congruence. }
      remember (h_r (bwd_packed (d_left (hd idx i)) (S0 (d_left (hd idx i))))) as ml.
      remember (h_l (bwd_packed (d_right (hd idx i)) (S0 (d_right (hd idx i))))) as mr.
      rewrite slices_of by auto. cbn [lbs rbs].
      assert (ES : tshape (h_t (bwd_packed (wk P idx) (S0 (wk P idx)))) = tshape (h_t (S0 (wk P idx)))).
      { rewrite bwd_packed_t by auto. destruct (d_rg (hd idx i)); cbn [zero_slice tshape]; now rewrite without_left_shape. }
      split; [|split].
      - destruct (d_lb (hd idx i)), (d_rb (hd idx i)); cbn [set_t h_t]; unfold bwd_unpack;
          rewrite ?add_shape; exact ES.
      - destruct (d_lb (hd idx i)), (d_rb (hd idx i)); cbn [set_t h_hist]; now rewrite ?bwd_packed_hist.
      - intros g Hg. destruct (zone_flags idx i g Hv Hi) as (Z0 & Z1 & Z2 & Z3).
        assert (ET : tat (h_t (bwd_packed (wk P idx) (S0 (wk P idx)))) (vsub g (base idx)) =
          if zone zone_lg idx i g || zone zone_rg idx i g then rzero else F S0 idx g).
        { rewrite bwd_packed_t by auto. destruct (d_rg (hd idx i)) eqn:E.
          - cbn [zero_slice tat]. rewrite in_local_global by auto. rewrite without_left_at by auto.
            destruct (zone zone_rg idx i g); [now rewrite orb_true_r|]. now rewrite orb_false_r.
          - rewrite without_left_at by auto. destruct (zone zone_rg idx i g); [specialize (Z3 eq_refl); discriminate|].
            now rewrite orb_false_r. }
        assert (GL : forall t : tensor, d_lb (hd idx i) = true ->
          tat (bwd_unpack (local_slice zone_lb idx i) ml t) (vsub g (base idx)) =
          radd (tat t (vsub g (base idx))) (if zone zone_lb idx i g then F S0 (prev i idx) g else rzero)).
        { intros t E. pose proof (on_lb idx i Hv Hi E) as Hx. pose proof (prev_valid i idx Hv Hi Hx) as Hp.
          pose proof (idx_length _ Hp). rewrite EL by auto. unfold bwd_unpack.
          destruct (left_agrees idx i Hv Hi Hx) as (_ & _ & _ & A).
          rewrite add_at by (now rewrite !local_slice_shape).
          rewrite in_local_global by auto. destruct (zone zone_lb idx i g) eqn:Ez; [|ring].
          rewrite transfer_point.
          - rewrite without_left_at by auto. rewrite <- zone_lb_prev in Ez by auto.
            destruct (zone zone_lg (prev i idx) i g) eqn:Ez'; [|reflexivity].
            exfalso. eapply ghosts_disjoint; eauto.
          - auto.
          - auto.
          - auto.
          - intros j. rewrite <- (range_next (prev i idx)) by (auto; unfold prev; rewrite upd_nth_eq by lia; lia).
            now rewrite next_prev by lia. }
        assert (GR : forall t : tensor, d_rb (hd idx i) = true ->
          tat (bwd_unpack (local_slice zone_rb idx i) mr t) (vsub g (base idx)) =
          radd (tat t (vsub g (base idx))) (if zone zone_rb idx i g then F S0 (next i idx) g else rzero)).
        { intros t E. pose proof (on_rb idx i Hv Hi E) as Hx. pose proof (next_valid i idx Hv Hi Hx) as Hp.
          pose proof (idx_length _ Hp). rewrite ER by auto. unfold bwd_unpack.
          destruct (right_agrees idx i Hv Hi Hx) as (_ & _ & _ & A). pose proof (idx_bound idx i Hv Hi).
          rewrite add_at by (now rewrite !local_slice_shape).
          rewrite in_local_global by auto. destruct (zone zone_rb idx i g) eqn:Ez; [|ring].
          rewrite transfer_point; auto.
          intros j. rewrite <- (range_prev (next i idx)) by (auto; unfold next; rewrite upd_nth_eq by lia; lia).
          now rewrite prev_next by lia. }
        destruct (d_lb (hd idx i)) eqn:E1, (d_rb (hd idx i)) eqn:E2; cbn [set_t h_t];
          rewrite ?GR by auto; rewrite ?GL by auto; rewrite ?ET; try reflexivity;
          destruct (zone zone_lb idx i g) eqn:Zr; destruct (zone zone_rb idx i g) eqn:Zl;
          try (specialize (Z0 eq_refl); discriminate); try (specialize (Z2 eq_refl); discriminate); ring.
    Qed.

    Lemma fwd_sync S0 v : In v world -> sync1 (forward_round (R := R) P shape recv send i) S0 v = fwd_res S0 v.
    Proof.
      destruct pairs as (P1 & P2 & P3 & P4 & _).
      apply (link_sync world fwd_pack fwd_unpack (takes_part P) (fun v => fwd_lrecv (D i v))
        (fun v => fwd_rrecv (D i v)) (fun v => fwd_lsend (D i v)) (fun v => fwd_rsend (D i v))); auto.
    Qed.

    Lemma bwd_sync S0 v : In v world -> sync1 (backward_round (R := R) P shape recv send i) S0 v = bwd_res S0 v.
    Proof.
      destruct pairs as (_ & _ & _ & _ & P1 & P2 & P3 & P4).
      apply (link_sync world bwd_pack bwd_unpack (takes_part P) (fun v => bwd_lrecv (D i v))
        (fun v => bwd_rrecv (D i v)) (fun v => bwd_lsend (D i v)) (fun v => bwd_rsend (D i v))); auto.
    Qed.
  End Dimension.

  (** * All dimensions *)

  Notation fround := (forward_round (R := R) P shape recv send).
  Notation bround := (backward_round (R := R) P shape recv send).

  Lemma wk_world idx : valid_index (p_shape P) idx -> In (wk P idx) world.
  Proof. intros. apply Hworld. now apply wk_In. Qed.

  Lemma fround_step i S0 idx : (i < length L)%nat -> valid_index (p_shape P) idx ->
    tshape (h_t (sync1 (fround i) S0 (wk P idx))) = tshape (h_t (S0 (wk P idx))) /\
    h_hist (sync1 (fround i) S0 (wk P idx)) = h_hist (S0 (wk P idx)) /\
    forall g, length g = length L ->
      F (sync1 (fround i) S0) idx g =
      if zone zone_rg idx i g then F S0 (next i idx) g
      else if zone zone_lg idx i g then F S0 (prev i idx) g
      else F S0 idx g.
  Proof.
    intros Hi Hv. unfold F at 1. rewrite fwd_sync by auto using wk_world. now apply fwd_step.
  Qed.

  Lemma bround_step i S0 idx : (i < length L)%nat -> valid_index (p_shape P) idx ->
    tshape (h_t (sync1 (bround i) S0 (wk P idx))) = tshape (h_t (S0 (wk P idx))) /\
    h_hist (sync1 (bround i) S0 (wk P idx)) = h_hist (S0 (wk P idx)) /\
    forall g, length g = length L ->
      F (sync1 (bround i) S0) idx g =
      radd (radd (if zone zone_lg idx i g || zone zone_rg idx i g then rzero else F S0 idx g)
                 (if zone zone_lb idx i g then F S0 (prev i idx) g else rzero))
           (if zone zone_rb idx i g then F S0 (next i idx) g else rzero).
  Proof.
    intros Hi Hv. unfold F at 1. rewrite bwd_sync by auto using wk_world. now apply bwd_step.
  Qed.

  (** A worker outside the partition keeps its state. *)
  Lemma outside_round (rd : nat -> Z -> list (@action hst tensor)) i S0 v : (rd = fround \/ rd = bround) ->
    ~ In v (p_ranks P) -> sync1 (rd i) S0 v = S0 v.
  Proof.
    intros Hrd Hv.
    assert (E : rd i v = []).
    { assert (Et : takes_part P v = false).
      { unfold takes_part. replace (is_active (p_ranks P) v) with false; auto.
        symmetry. now apply is_active_false. }
      destruct Hrd as [-> | ->]; unfold forward_round, backward_round; now rewrite Et. }
    unfold sync1. now rewrite E.
  Qed.

  Lemma sync_rounds_app (a b : list (@round hst tensor)) S0 :
    sync_rounds (a ++ b) S0 = sync_rounds b (sync_rounds a S0).
  Proof. unfold sync_rounds. apply fold_left_app. Qed.

  Lemma rounds_keep rd l S0 : (rd = fround \/ rd = bround) -> Forall (fun i => (i < length L)%nat) l ->
    (forall idx, valid_index (p_shape P) idx ->
       tshape (h_t (sync_rounds (map rd l) S0 (wk P idx))) = tshape (h_t (S0 (wk P idx))) /\
       h_hist (sync_rounds (map rd l) S0 (wk P idx)) = h_hist (S0 (wk P idx))) /\
    (forall v, ~ In v (p_ranks P) -> sync_rounds (map rd l) S0 v = S0 v).
  Proof.
    intros Hrd Hl. revert S0. induction Hl as [|i l Hi Hl IH]; intros S0; [split; auto|].
    cbn [map]. unfold sync_rounds. cbn [fold_left]. fold (sync_rounds (map rd l) (sync1 (rd i) S0)).
    destruct (IH (sync1 (rd i) S0)) as [I1 I2]. split.
    - intros idx Hv. destruct (I1 idx Hv) as [-> ->].
      destruct Hrd as [-> | ->]; [destruct (fround_step i S0 idx Hi Hv) as (E1 & E2 & _)
                                |destruct (bround_step i S0 idx Hi Hv) as (E1 & E2 & _)]; auto.
    - intros v Hv. rewrite I2 by auto. now apply outside_round.
  Qed.

  (** ** Forward: the ghost cells *)

  Definition covered (k : nat) (idx g : list Z) : Prop :=
    forall j, (j < length L)%nat ->
      let x := nth j idx 0 in
      if (j <? k)%nat then lo1 j x - hl j x <= nth j g 0 < lo1 j x + ext j x + hr j x
      else lo1 j x <= nth j g 0 < lo1 j x + ext j x.

  Definition agrees (G : list Z -> R) (k : nat) (S0 : Z -> hst) : Prop :=
    forall idx g, valid_index (p_shape P) idx -> length g = length L -> covered k idx g -> F S0 idx g = G g.

  Section Narrow.
    Hypothesis HN : halos_narrow L H.

    Lemma narrow_at j x : (j < length L)%nat -> 0 <= x -> x + 1 < np j ->
      hl j (x + 1) <= ext j x /\ hr j x <= ext j (x + 1).
    Proof.
      intros Hj H0 H1. rewrite np_length in H1 by auto.
      destruct (proj1 (Forall2_nth dim_narrow L H [] []) HN) as [_ F0]. now apply (F0 j Hj).
    Qed.

    Lemma forward_agrees G i S0 : (i < length L)%nat -> agrees G i S0 -> agrees G (S i) (sync1 (fround i) S0).
    Proof.
      intros Hi HA idx g Hv Hg Hc. destruct (fround_step i S0 idx Hi Hv) as (_ & _ & E). rewrite E by auto.
      pose proof (idx_length idx Hv) as Hl. pose proof (idx_bound idx i Hv Hi) as Hb.
      pose proof (ext_nonneg i (nth i idx 0)) as Hext.
      destruct (zone zone_rg idx i g) eqn:Zr; [|destruct (zone zone_lg idx i g) eqn:Zl].
      - pose proof (zone_own _ _ _ _ Hi Zr) as Ho. cbn [zone_rg fst snd] in Ho.
        assert (Hx : nth i idx 0 + 1 < np i) by (apply hr_has_next; auto; lia).
        apply HA; auto; [now apply next_valid|]. intros j Hj. specialize (Hc j Hj). cbv zeta in *.
        unfold next. destruct (Nat.eq_dec i j) as [<-|N].
        + rewrite upd_nth_eq by lia. rewrite Nat.ltb_irrefl. rewrite lo1_next by lia.
          destruct (narrow_at i (nth i idx 0) Hi ltac:(lia) Hx). lia.
        + rewrite upd_nth_neq by auto. destruct (Nat.ltb_spec j i), (Nat.ltb_spec j (S i)); try lia; auto.
      - pose proof (zone_own _ _ _ _ Hi Zl) as Ho. cbn [zone_lg fst snd] in Ho.
        assert (Hx : 0 < nth i idx 0) by (apply hl_has_prev; auto; lia).
        apply HA; auto; [now apply prev_valid|]. intros j Hj. specialize (Hc j Hj). cbv zeta in *.
        unfold prev. destruct (Nat.eq_dec i j) as [<-|N].
        + rewrite upd_nth_eq by lia. rewrite Nat.ltb_irrefl.
          pose proof (lo1_next i (nth i idx 0 - 1) ltac:(lia)) as El.
          destruct (narrow_at i (nth i idx 0 - 1) Hi ltac:(lia) ltac:(lia)) as [N1 _].
          replace (nth i idx 0 - 1 + 1) with (nth i idx 0) in * by lia. lia.
        + rewrite upd_nth_neq by auto. destruct (Nat.ltb_spec j i), (Nat.ltb_spec j (S i)); try lia; auto.
      - apply HA; auto. intros j Hj. pose proof (Hc j Hj) as Hcj. cbv zeta in *.
        destruct (Nat.eq_dec i j) as [<-|N].
        + rewrite Nat.ltb_irrefl. destruct (Nat.ltb_spec i (S i)); [|lia].
          assert (HZ : forall own, zone own idx i g = false ->
            ~ (fst (own i (nth i idx 0)) <= nth i g 0 < snd (own i (nth i idx 0)))).
          { intros own Hz Hr. enough (zone own idx i g = true) by congruence. apply zone_spec. intros j Hj'.
            specialize (Hc j Hj'). cbv zeta in Hc. unfold range.
            destruct (Nat.ltb_spec j i), (Nat.ltb_spec j (S i)); try lia; auto.
            - destruct (Nat.eqb_spec j i); [|lia]. subst j. auto.
            - destruct (Nat.eqb_spec j i); [lia|]. auto. }
          pose proof (HZ _ Zr) as R1. pose proof (HZ _ Zl) as R2. cbn [zone_rg zone_lg fst snd] in R1, R2. lia.
        + destruct (Nat.ltb_spec j i), (Nat.ltb_spec j (S i)); try lia; auto.
    Qed.

    Lemma forward_fills G S0 n : (n <= length L)%nat -> agrees G 0 S0 ->
      agrees G n (sync_rounds (map fround (seq 0 n)) S0).
    Proof.
      induction n as [|n IH]; intros Hn HA; auto.
      rewrite seq_S, map_app, sync_rounds_app. cbn [map Nat.add]. unfold sync_rounds at 1. cbn [fold_left].
      apply forward_agrees; [lia|]. apply IH; auto. lia.
    Qed.
  End Narrow.

  (** ** Backward: the adjoint *)

  Section Fit.
    Hypothesis HF : halos_fit L H.

    Lemma fit_at j x : (j < length L)%nat -> 0 <= x -> x + 1 < np j ->
      hl j (x + 1) <= hl j x + ext j x /\ hr j x <= ext j (x + 1) + hr j (x + 1).
    Proof.
      intros Hj H0 H1. rewrite np_length in H1 by auto.
      destruct (proj1 (Forall2_nth dim_fits L H [] []) HF) as [_ F0]. now apply (F0 j Hj).
    Qed.

    Lemma box_low j x : (j < length L)%nat -> 0 <= x < np j -> 0 <= lo1 j x - hl j x.
    Proof.
      intros Hj [H0 H1]. revert H1. pattern x. apply natlike_ind; auto.
      - intros _. rewrite hl_first by auto. unfold lo1. cbn. lia.
      - intros y Hy IH Hy'. unfold Z.succ in *. rewrite lo1_next by auto. destruct (fit_at j y); auto. lia.
    Qed.

    Lemma box_high j x : (j < length L)%nat -> 0 <= x < np j -> lo1 j x + ext j x + hr j x <= zsum (nth j L []).
    Proof.
      intros Hj Hx. remember (np j - 1 - x) as y eqn:Ey. assert (Hy : 0 <= y) by lia.
      revert x Hx Ey. pattern y. apply natlike_ind; auto.
      - intros x Hx Ey. assert (E : x = np j - 1) by lia. rewrite E at 3. rewrite hr_last by auto.
        rewrite <- lo1_next by lia. unfold lo1. rewrite np_length in E by auto.
        replace (Z.to_nat (x + 1)) with (length (nth j L [])) by lia. rewrite firstn_all. lia.
      - intros z Hz IH x Hx Ey. specialize (IH (x + 1) ltac:(lia) ltac:(lia)).
        destruct (fit_at j x) as [_ Hf]; [auto|lia|lia|]. rewrite lo1_next in IH by lia. lia.
    Qed.

    Lemma zone_box own idx i g : valid_index (p_shape P) idx -> (i < length L)%nat ->
      lo1 i (nth i idx 0) - hl i (nth i idx 0) <= fst (own i (nth i idx 0)) ->
      snd (own i (nth i idx 0)) <= lo1 i (nth i idx 0) + ext i (nth i idx 0) + hr i (nth i idx 0) ->
      zone own idx i g = true -> box idx g = true.
    Proof.
      intros Hv Hi H1 H2 Hz. apply box_spec. intros j Hj. rewrite zone_spec in Hz. specialize (Hz j Hj).
      unfold range in Hz. pose proof (hl_nonneg j (nth j idx 0) Hj). pose proof (hr_nonneg j (nth j idx 0) Hj).
      destruct (Nat.ltb_spec j i); [exact Hz|]. destruct (Nat.eqb_spec j i) as [Ej|].
      - rewrite Ej in *. lia.
      - cbn [fst snd] in Hz. lia.
    Qed.

    Lemma zones_box idx i g : valid_index (p_shape P) idx -> (i < length L)%nat ->
      zone zone_lb idx i g = true \/ zone zone_lg idx i g = true \/ zone zone_rb idx i g = true \/
      zone zone_rg idx i g = true -> box idx g = true.
    Proof.
      intros Hv Hi Hz. pose proof (hl_nonneg i (nth i idx 0) Hi) as N1. pose proof (hr_nonneg i (nth i idx 0) Hi) as N2.
      pose proof (ext_nonneg i (nth i idx 0)) as N3. pose proof (idx_bound idx i Hv Hi) as Hb.
      destruct Hz as [Hz|[Hz|[Hz|Hz]]]; pose proof (zone_own _ _ _ _ Hi Hz) as Ho;
        cbn [zone_lb zone_lg zone_rb zone_rg fst snd] in Ho.
      - assert (Hx : 0 < nth i idx 0) by (apply (ls_has_prev idx i); lia).
        apply (zone_box zone_lb idx i g); auto; cbn [zone_lb fst snd]; [lia|].
        unfold ls. destruct (Z.ltb_spec 0 (nth i idx 0)); [|lia].
        destruct (fit_at i (nth i idx 0 - 1)) as [_ Hf]; [auto|lia|lia|].
        replace (nth i idx 0 - 1 + 1) with (nth i idx 0) in Hf by lia. lia.
      - apply (zone_box zone_lg idx i g); auto; cbn [zone_lg fst snd]; lia.
      - assert (Hx : nth i idx 0 + 1 < np i) by (apply (rs_has_next idx i); auto; lia).
        apply (zone_box zone_rb idx i g); auto; cbn [zone_rb fst snd]; [|lia].
        unfold rs. destruct (fit_at i (nth i idx 0)) as [Hf _]; [auto|lia|lia|]. lia.
      - apply (zone_box zone_rg idx i g); auto; cbn [zone_rg fst snd]; lia.
    Qed.

    Lemma padded_point idx p : valid_index (p_shape P) idx -> valid_index (padded_shape L H idx) p ->
      box idx (vadd (base idx) p) = true /\ valid_index (layout_shape L) (vadd (base idx) p).
    Proof.
      intros Hv Hp. pose proof (idx_length idx Hv) as Hl. pose proof (base_length idx Hl) as Hbl.
      pose proof (padded_length idx Hl) as Hpl. pose proof (valid_index_length _ _ Hp) as Hplen.
      apply valid_index_nth in Hp as [_ Hp].
      assert (Hbox : box idx (vadd (base idx) p) = true).
      { apply box_spec. intros j Hj. specialize (Hp j ltac:(lia)). rewrite padded_nth in Hp by auto.
        unfold vadd. rewrite map2_nth with (da := 0) (db := 0) by lia. rewrite base_nth by auto. lia. }
      split; auto. apply valid_index_nth.
      assert (El : length (layout_shape L) = length L) by (unfold layout_shape; apply map_length).
      split; [unfold vadd; rewrite map2_length; lia|]. intros j Hj. rewrite El in Hj.
      rewrite box_spec in Hbox. specialize (Hbox j Hj).
      pose proof (box_low j (nth j idx 0) Hj (idx_bound idx j Hv Hj)).
      pose proof (box_high j (nth j idx 0) Hj (idx_bound idx j Hv Hj)).
      unfold layout_shape. rewrite xshape_nth. lia.
    Qed.

    (** A sum over the local tensor is a sum over the global points it covers. *)
    Lemma box_sum idx (f : list Z -> R) : valid_index (p_shape P) idx ->
      sumf (indices (padded_shape L H idx)) (fun p => f (vadd (base idx) p)) =
      sumf (indices (layout_shape L)) (fun g => if box idx g then f g else rzero).
    Proof.
      intros Hv. pose proof (idx_length idx Hv) as Hl. pose proof (base_length idx Hl) as Hbl.
      pose proof (padded_length idx Hl) as Hpl.
      rewrite <- (sumf_filter (box idx)). symmetry.
      apply (sumf_reindex (indices (padded_shape L H idx)) (filter (box idx) (indices (layout_shape L))) (vadd (base idx)) f).
      - apply indices_nodup.
      - apply NoDup_filter, indices_nodup.
      - intros p Hp. apply in_indices in Hp. destruct (padded_point idx p Hv Hp) as [Hbox Hin].
        apply filter_In. split; auto. now apply in_indices.
      - intros p q Hp Hq E. apply in_indices in Hp, Hq. apply valid_index_length in Hp, Hq.
        rewrite <- (vadd_vsub (base idx) p), <- (vadd_vsub (base idx) q), E by lia. reflexivity.
      - intros g Hg. apply filter_In in Hg as [Hg Hbox]. apply in_indices in Hg.
        apply valid_index_length in Hg. unfold layout_shape in Hg. rewrite map_length in Hg.
        exists (vsub g (base idx)). split; [|apply vadd_vsub'; lia].
        apply in_indices, valid_index_nth. unfold vsub. split; [rewrite map2_length; lia|].
        intros j Hj. rewrite Hpl in Hj. rewrite map2_nth with (da := 0) (db := 0) by lia.
        rewrite padded_nth, base_nth by auto. rewrite box_spec in Hbox. specialize (Hbox j Hj). lia.
    Qed.

    Definition pairing (S0 T0 : Z -> hst) : R :=
      sumf (range_index (p_shape P)) (fun idx =>
        sumf (indices (padded_shape L H idx)) (fun p =>
          rmul (tat (h_t (S0 (wk P idx))) p) (tat (h_t (T0 (wk P idx))) p))).

    Lemma pairing_global S0 T0 : pairing S0 T0 =
      sumf (indices (layout_shape L)) (fun g =>
        sumf (range_index (p_shape P)) (fun idx =>
          if box idx g then rmul (F S0 idx g) (F T0 idx g) else rzero)).
    Proof.
      unfold pairing. rewrite <- sumf_exchange. apply sumf_ext. intros idx Hx. apply in_range_index in Hx.
      pose proof (idx_length idx Hx) as Hl. pose proof (base_length idx Hl).
      rewrite <- (box_sum idx (fun g => rmul (F S0 idx g) (F T0 idx g))) by auto.
      apply sumf_ext. intros p Hp. apply in_indices, valid_index_length in Hp. rewrite padded_length in Hp by auto.
      unfold F. rewrite vadd_vsub by lia. reflexivity.
    Qed.

    (** Terms move between neighbours. *)
    Lemma shift_sum i (zr zl : list Z -> bool) (f : list Z -> list Z -> R) : (i < length L)%nat ->
      (forall idx, valid_index (p_shape P) idx -> zr idx = true -> nth i idx 0 + 1 < np i /\ zl (next i idx) = true) ->
      (forall idx, valid_index (p_shape P) idx -> zl idx = true -> 0 < nth i idx 0 /\ zr (prev i idx) = true) ->
      sumf (range_index (p_shape P)) (fun idx => if zl idx then f idx (prev i idx) else rzero) =
      sumf (range_index (p_shape P)) (fun idx => if zr idx then f (next i idx) idx else rzero).
    Proof.
      intros Hi Hr Hz. rewrite <- (sumf_filter zr), <- (sumf_filter zl).
      set (I := range_index (p_shape P)).
      rewrite (sumf_reindex (filter zr I) (filter zl I) (next i) (fun idx => f idx (prev i idx))).
      - apply sumf_ext. intros idx Hx. apply filter_In in Hx as [Hx _]. apply in_range_index in Hx.
        rewrite prev_next; auto. rewrite (idx_length idx Hx). auto.
      - apply NoDup_filter, range_index_nodup.
      - apply NoDup_filter, range_index_nodup.
      - intros idx Hx. apply filter_In in Hx as [Hx E]. apply in_range_index in Hx.
        destruct (Hr idx Hx E) as [H1 H2]. apply filter_In. split; auto. apply in_range_index. now apply next_valid.
      - intros a b Ha Hb E. apply filter_In in Ha as [Ha _], Hb as [Hb _]. apply in_range_index in Ha, Hb.
        rewrite <- (prev_next i a), <- (prev_next i b), E by (rewrite (idx_length _ Ha) || rewrite (idx_length _ Hb); auto).
        reflexivity.
      - intros idx Hx. apply filter_In in Hx as [Hx E]. apply in_range_index in Hx.
        destruct (Hz idx Hx E) as [H1 H2]. exists (prev i idx). split.
        + apply filter_In. split; auto. apply in_range_index. now apply prev_valid.
        + apply next_prev. rewrite (idx_length idx Hx). auto.
    Qed.

    Lemma step_adjoint i S0 T0 : (i < length L)%nat ->
      pairing (sync1 (fround i) S0) T0 = pairing S0 (sync1 (bround i) T0).
    Proof.
      intros Hi. rewrite !pairing_global. apply sumf_ext. intros g Hg. apply in_indices, valid_index_length in Hg.
      unfold layout_shape in Hg. rewrite map_length in Hg.
      set (I := range_index (p_shape P)).
      set (keep := fun idx => if box idx g then
        if zone zone_lg idx i g || zone zone_rg idx i g then rzero else rmul (F S0 idx g) (F T0 idx g) else rzero).
      transitivity (radd (radd (sumf I keep)
        (sumf I (fun idx => if zone zone_rg idx i g then rmul (F S0 (next i idx) g) (F T0 idx g) else rzero)))
        (sumf I (fun idx => if zone zone_lg idx i g then rmul (F S0 (prev i idx) g) (F T0 idx g) else rzero))).
      { rewrite <- !sumf_add. apply sumf_ext. intros idx Hx. apply in_range_index in Hx.
        destruct (fround_step i S0 idx Hi Hx) as (_ & _ & E). rewrite E by auto. unfold keep.
        pose proof (zones_box idx i g Hx Hi) as Hb. pose proof (ghosts_disjoint i Hi idx g) as Hd.
        destruct (zone zone_rg idx i g) eqn:Zr; destruct (zone zone_lg idx i g) eqn:Zl; cbn [orb].
        - exfalso. now apply Hd.
        - rewrite Hb by auto. ring.
        - rewrite Hb by auto. ring.
        - destruct (box idx g); ring. }
      transitivity (radd (radd (sumf I keep)
        (sumf I (fun idx => if zone zone_lb idx i g then rmul (F S0 idx g) (F T0 (prev i idx) g) else rzero)))
        (sumf I (fun idx => if zone zone_rb idx i g then rmul (F S0 idx g) (F T0 (next i idx) g) else rzero))).
      { f_equal; [f_equal|].
        - symmetry. apply (shift_sum i (fun idx => zone zone_rg idx i g) (fun idx => zone zone_lb idx i g)
            (fun a b => rmul (F S0 a g) (F T0 b g))); auto.
          + intros idx Hx E. pose proof (zone_own _ _ _ _ Hi E) as Ho. cbn [zone_rg fst snd] in Ho.
            pose proof (idx_length idx Hx). pose proof (idx_bound idx i Hx Hi).
            split; [apply hr_has_next; auto; lia|]. rewrite <- E. apply range_zone_ext. intros j.
            apply range_next; auto; lia.
          + intros idx Hx E. pose proof (zone_own _ _ _ _ Hi E) as Ho. cbn [zone_lb fst snd] in Ho.
            assert (0 < nth i idx 0) by (apply (ls_has_prev idx i); lia).
            split; auto. now rewrite zone_lb_prev.
        - apply (shift_sum i (fun idx => zone zone_rb idx i g) (fun idx => zone zone_lg idx i g)
            (fun a b => rmul (F S0 b g) (F T0 a g))); auto.
          + intros idx Hx E. pose proof (zone_own _ _ _ _ Hi E) as Ho. cbn [zone_rb fst snd] in Ho.
            pose proof (idx_length idx Hx). pose proof (idx_bound idx i Hx Hi).
            assert (Hn : nth i idx 0 + 1 < np i) by (apply rs_has_next; auto; lia).
            split; auto. pose proof (next_valid i idx Hx Hi Hn) as Hnv. pose proof (idx_length _ Hnv).
            rewrite <- E. apply range_zone_ext. intros j.
            rewrite <- (range_prev (next i idx)) by (auto; unfold next; rewrite upd_nth_eq by lia; lia).
            now rewrite prev_next by lia.
          + intros idx Hx E. pose proof (zone_own _ _ _ _ Hi E) as Ho. cbn [zone_lg fst snd] in Ho.
            assert (0 < nth i idx 0) by (apply hl_has_prev; auto; lia).
            split; auto. rewrite <- E. apply range_zone_ext. intros j. apply range_prev; auto using idx_length. }
      rewrite <- !sumf_add. apply sumf_ext. intros idx Hx. apply in_range_index in Hx.
      destruct (bround_step i T0 idx Hi Hx) as (_ & _ & E). rewrite E by auto. unfold keep.
      pose proof (zones_box idx i g Hx Hi) as Hb. pose proof (ghosts_disjoint i Hi idx g) as Hd.
      destruct (box idx g) eqn:Eb.
      - destruct (zone zone_lg idx i g || zone zone_rg idx i g); destruct (zone zone_lb idx i g);
          destruct (zone zone_rb idx i g); ring.
      - destruct (zone zone_lb idx i g); [discriminate (Hb ltac:(auto))|].
        destruct (zone zone_rb idx i g); [discriminate (Hb ltac:(auto))|]. ring.
    Qed.

    Lemma rounds_adjoint n S0 T0 : (n <= length L)%nat ->
      pairing (sync_rounds (map fround (seq 0 n)) S0) T0 =
      pairing S0 (sync_rounds (map bround (rev (seq 0 n))) T0).
    Proof.
      revert T0. induction n as [|n IH]; intros T0 Hn; auto.
      rewrite seq_S, map_app, sync_rounds_app, rev_app_distr. cbn [map Nat.add rev app].
      unfold sync_rounds at 1. cbn [fold_left]. rewrite step_adjoint by lia. rewrite IH by lia. reflexivity.
    Qed.
  End Fit.
End Zones.
