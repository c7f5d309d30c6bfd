(** Lemmas about the index helpers (properties C01, C02, C04, C05, C06). *)

From Verif Require Import Prelude ModelSlicing SpecIndex.

(** * valid_index and in_box *)

Lemma valid_index_nil idx : valid_index [] idx <-> idx = [].
Proof. unfold valid_index. split; intros H; [now inv H|subst; constructor]. Qed.

Lemma valid_index_cons n s i idx :
  valid_index (n :: s) (i :: idx) <-> 0 <= i < n /\ valid_index s idx.
Proof. unfold valid_index. split; intros H; [now inv H|destruct H; now constructor]. Qed.

Lemma valid_index_cons_inv n s idx :
  valid_index (n :: s) idx -> exists i t, idx = i :: t /\ 0 <= i < n /\ valid_index s t.
Proof. intros H. inv H. eauto. Qed.

Lemma valid_index_length s i : valid_index s i -> length i = length s.
Proof. intros H. symmetry. eapply Forall2_length; eauto. Qed.

Lemma valid_index_nth s i : valid_index s i <->
  length s = length i /\ forall k, (k < length s)%nat -> 0 <= nth k i 0 < nth k s 0.
Proof.
  unfold valid_index. rewrite Forall2_nth with (da := 0) (db := 0). reflexivity.
Qed.

Lemma in_box_nil g : in_box [] [] g <-> g = [].
Proof.
  unfold in_box. split.
  - intros (H & _ & _). destruct g; auto. discriminate.
  - intros ->. simpl. repeat split; auto; intros; lia.
Qed.

Lemma in_box_cons a lo b hi x g :
  in_box (a :: lo) (b :: hi) (x :: g) <-> a <= x < b /\ in_box lo hi g.
Proof.
  unfold in_box. simpl. split.
  - intros (H1 & H2 & H3). split; [apply (H3 0%nat); lia|].
    split; [lia|]. split; [lia|]. intros k Hk. apply (H3 (S k)). lia.
  - intros (H0 & H1 & H2 & H3). split; [lia|]. split; [lia|].
    intros [|k] Hk; [lia|]. apply (H3 k). lia.
Qed.

Lemma in_box_cons_inv a lo b hi g :
  in_box (a :: lo) (b :: hi) g -> exists x t, g = x :: t /\ a <= x < b /\ in_box lo hi t.
Proof.
  intros H. destruct g as [|x t].
  - destruct H as (H & _). discriminate.
  - apply in_box_cons in H as []. eauto.
Qed.

(** * One dimension (C01, C02) *)

Lemma subshape1_nonneg P i n : 0 < P -> 0 <= n -> 0 <= subshape1 P i n.
Proof. unfold subshape1. intros. pose proof (Z.div_pos n P). destruct (i <? n mod P); lia. Qed.

Lemma start1_step P i n : 0 < P -> 0 <= i -> start1 P (i + 1) n = start1 P i n + subshape1 P i n.
Proof.
  intros HP Hi. unfold start1, subshape1.
  generalize (n / P) as q, (n mod P) as r; intros.
  destruct (i <? r) eqn:E; breflect; nia.
Qed.

Lemma start1_0 P n : 0 < P -> start1 P 0 n = 0.
Proof. intros. unfold start1. pose proof (Z.mod_pos_bound n P). lia. Qed.

Lemma start1_P P n : 0 < P -> start1 P P n = n.
Proof.
  intros. unfold start1. pose proof (Z.mod_pos_bound n P). pose proof (Z.div_mod n P). lia.
Qed.

Lemma start1_mono P i j n : 0 < P -> 0 <= n -> 0 <= i <= j -> start1 P i n <= start1 P j n.
Proof. intros. unfold start1. pose proof (Z.div_pos n P). nia. Qed.

(** Existence of the owner of a point, by induction on the number of workers. *)
Lemma owner1_exists P n g : 0 < P -> 0 <= n -> 0 <= g < n ->
  exists i, 0 <= i < P /\ start1 P i n <= g < start1 P i n + subshape1 P i n.
Proof.
  intros HP Hn Hg.
  assert (H : forall k : nat, Z.of_nat k <= P -> g < start1 P (Z.of_nat k) n ->
    exists i, 0 <= i < Z.of_nat k /\ start1 P i n <= g < start1 P i n + subshape1 P i n).
  { induction k as [|k IH]; intros Hk Hgk.
    - rewrite start1_0 in Hgk; lia.
    - destruct (Z_lt_ge_dec g (start1 P (Z.of_nat k) n)) as [L|G].
      + destruct IH as (i & Hi & Hs); try lia. exists i. split; [lia|auto].
      + exists (Z.of_nat k). split; [lia|].
        rewrite Nat2Z.inj_succ in Hgk. unfold Z.succ in Hgk.
        rewrite start1_step in Hgk by lia. lia. }
  destruct (H (Z.to_nat P)) as (i & Hi & Hs).
  - lia.
  - rewrite Z2Nat.id by lia. rewrite start1_P; lia.
  - exists i. split; [lia|auto].
Qed.

Lemma owner1_unique P n g i j : 0 < P -> 0 <= n -> 0 <= i -> 0 <= j ->
  start1 P i n <= g < start1 P i n + subshape1 P i n ->
  start1 P j n <= g < start1 P j n + subshape1 P j n -> i = j.
Proof.
  intros HP Hn Hi Hj H1 H2.
  rewrite <- start1_step in H1, H2 by lia.
  destruct (Z.lt_trichotomy i j) as [L|[E|L]]; auto.
  - assert (start1 P (i + 1) n <= start1 P j n) by (apply start1_mono; lia). lia.
  - assert (start1 P (j + 1) n <= start1 P i n) by (apply start1_mono; lia). lia.
Qed.

Lemma owner1_inside P n i : 0 < P -> 0 <= n -> 0 <= i < P ->
  0 <= start1 P i n /\ start1 P i n + subshape1 P i n <= n.
Proof.
  intros HP Hn Hi. split.
  - rewrite <- (start1_0 P n) by auto. apply start1_mono; lia.
  - rewrite <- start1_step by lia. rewrite <- (start1_P P n) at 2 by auto.
    apply start1_mono; lia.
Qed.

Lemma subshape1_balance P n i j : 0 < P -> 0 <= n -> i <= j ->
  subshape1 P j n <= subshape1 P i n <= subshape1 P j n + 1.
Proof.
  intros HP Hn Hij. unfold subshape1.
  destruct (i <? n mod P) eqn:E1; destruct (j <? n mod P) eqn:E2; breflect; lia.
Qed.

Lemma subshape1_sum_prefix P n k : 0 < P -> 0 <= k ->
  zsum (map (fun i => subshape1 P i n) (zrange k)) = start1 P k n.
Proof.
  intros HP Hk. rewrite <- (Z2Nat.id k) by auto. clear Hk.
  induction (Z.to_nat k) as [|m IH].
  - rewrite zrange_nonpos by lia. simpl. rewrite start1_0; auto.
  - rewrite Nat2Z.inj_succ. unfold Z.succ. rewrite zrange_succ by lia.
    rewrite map_app, zsum_app, IH. simpl. rewrite start1_step by lia. lia.
Qed.

(** * All dimensions (C01) *)

Lemma stop_unfold p P i idx n s :
  compute_stop_index (p :: P) (i :: idx) (n :: s) =
  (start1 p i n + subshape1 p i n) :: compute_stop_index P idx s.
Proof. reflexivity. Qed.

Lemma start_unfold p P i idx n s :
  compute_start_index (p :: P) (i :: idx) (n :: s) =
  start1 p i n :: compute_start_index P idx s.
Proof. reflexivity. Qed.

Lemma subshape_unfold p P i idx n s :
  compute_subshape (p :: P) (i :: idx) (n :: s) =
  subshape1 p i n :: compute_subshape P idx s.
Proof. reflexivity. Qed.

Lemma tiling_exists P n g : pos_shape P -> length P = length n -> nonneg_shape n ->
  valid_index n g ->
  exists w, valid_index P w /\ in_box (compute_start_index P w n) (compute_stop_index P w n) g.
Proof.
  intros HP. revert n g. induction HP as [|p P Hp HP IH]; intros n g HL Hn Hg;
    destruct n as [|m n]; try discriminate.
  - apply valid_index_nil in Hg. subst. exists []. split.
    + constructor.
    + now apply in_box_nil.
  - apply valid_index_cons_inv in Hg as (x & t & -> & Hx & Ht).
    inv Hn.
    destruct (IH n t) as (w & Hw & Hb); auto.
    destruct (owner1_exists p m x) as (i & Hi & Hs); auto.
    exists (i :: w). split; [now apply valid_index_cons|].
    rewrite stop_unfold, start_unfold. now apply in_box_cons.
Qed.

Lemma tiling_unique P n g w w' : pos_shape P -> nonneg_shape n ->
  valid_index P w -> valid_index P w' -> length P = length n ->
  in_box (compute_start_index P w n) (compute_stop_index P w n) g ->
  in_box (compute_start_index P w' n) (compute_stop_index P w' n) g -> w = w'.
Proof.
  intros HP. revert n g w w'. induction HP as [|p P Hp HP IH];
    intros n g w w' Hn Hw Hw' HL H1 H2; destruct n as [|m n]; try discriminate.
  - apply valid_index_nil in Hw, Hw'. congruence.
  - apply valid_index_cons_inv in Hw as (i & t & -> & Hi & Ht).
    apply valid_index_cons_inv in Hw' as (i' & t' & -> & Hi' & Ht').
    rewrite stop_unfold, start_unfold in H1, H2.
    apply in_box_cons_inv in H1 as (x & u & -> & Hx & Hu).
    apply in_box_cons in H2 as (Hx' & Hu').
    inv Hn. f_equal.
    + eapply owner1_unique with (P := p) (n := m) (g := x); auto; lia.
    + eapply IH; eauto.
Qed.

Lemma tiling_inside P n g w : pos_shape P -> nonneg_shape n ->
  valid_index P w -> length P = length n ->
  in_box (compute_start_index P w n) (compute_stop_index P w n) g -> valid_index n g.
Proof.
  intros HP. revert n g w. induction HP as [|p P Hp HP IH];
    intros n g w Hn Hw HL H1; destruct n as [|m n]; try discriminate.
  - apply valid_index_nil in Hw. subst. apply in_box_nil in H1. subst. constructor.
  - apply valid_index_cons_inv in Hw as (i & t & -> & Hi & Ht).
    rewrite stop_unfold, start_unfold in H1.
    apply in_box_cons_inv in H1 as (x & u & -> & Hx & Hu).
    inv Hn. apply valid_index_cons. split.
    + destruct (owner1_inside p m i); auto; lia.
    + eapply IH; eauto.
Qed.

Lemma compute_start_length P w n : length w = length P -> length n = length P ->
  length (compute_start_index P w n) = length P.
Proof. intros. unfold compute_start_index. apply map3_length; lia. Qed.

Lemma compute_subshape_length P w n : length w = length P -> length n = length P ->
  length (compute_subshape P w n) = length P.
Proof. intros. unfold compute_subshape. apply map3_length; lia. Qed.

Lemma compute_stop_length P w n : length w = length P -> length n = length P ->
  length (compute_stop_index P w n) = length P.
Proof.
  intros. unfold compute_stop_index. rewrite map2_length.
  - now apply compute_start_length.
  - rewrite compute_start_length, compute_subshape_length; auto.
Qed.

Lemma compute_subshape_nonneg P w n : pos_shape P -> nonneg_shape n ->
  length w = length P -> length n = length P -> nonneg_shape (compute_subshape P w n).
Proof.
  intros HP. revert w n. induction HP as [|p P Hp HP IH]; intros w n Hn Hw HL;
    destruct w, n; try discriminate.
  - constructor.
  - inv Hn. constructor; [now apply subshape1_nonneg|]. apply IH; auto.
Qed.

Lemma stop_minus_start P w n : length w = length P -> length n = length P ->
  vsub (compute_stop_index P w n) (compute_start_index P w n) = compute_subshape P w n.
Proof.
  revert w n. induction P as [|p P IH]; intros w n HL1 HL2; destruct w, n; try discriminate; auto.
  rewrite stop_unfold, start_unfold, subshape_unfold. unfold vsub in *. simpl.
  f_equal; [lia|]. apply IH; auto.
Qed.

(** Local to global translation: local indices of the block correspond one to
    one with the global indices of the box. *)
Lemma vadd_in_box P w n l : length w = length P -> length n = length P ->
  valid_index (compute_subshape P w n) l ->
  in_box (compute_start_index P w n) (compute_stop_index P w n)
         (vadd (compute_start_index P w n) l).
Proof.
  revert w n l. induction P as [|p P IH]; intros w n l HL1 HL2 Hl; destruct w, n; try discriminate.
  - apply valid_index_nil in Hl. subst. now apply in_box_nil.
  - rewrite subshape_unfold in Hl. apply valid_index_cons_inv in Hl as (x & t & -> & Hx & Ht).
    rewrite stop_unfold, start_unfold. unfold vadd. simpl. apply in_box_cons. split; [lia|].
    apply IH; auto.
Qed.

Lemma vsub_in_box P w n g : length w = length P -> length n = length P ->
  in_box (compute_start_index P w n) (compute_stop_index P w n) g ->
  valid_index (compute_subshape P w n) (vsub g (compute_start_index P w n)) /\
  vadd (compute_start_index P w n) (vsub g (compute_start_index P w n)) = g.
Proof.
  revert w n g. induction P as [|p P IH]; intros w n g HL1 HL2 Hg; destruct w, n; try discriminate.
  - apply in_box_nil in Hg. subst. split; constructor.
  - rewrite stop_unfold, start_unfold in Hg.
    apply in_box_cons_inv in Hg as (x & t & -> & Hx & Ht).
    destruct (IH w n t) as [IH1 IH2]; auto.
    rewrite subshape_unfold, start_unfold. unfold vadd, vsub in *. simpl. split.
    + apply valid_index_cons. split; [lia|auto].
    + rewrite IH2. f_equal. lia.
Qed.

(** * range_index (C04) *)

Lemma in_range_index s idx : In idx (range_index s) <-> valid_index s idx.
Proof.
  revert idx. induction s as [|n s IH]; intros idx; simpl.
  - rewrite valid_index_nil. intuition.
  - rewrite in_flat_map. split.
    + intros (i & Hi & H). apply in_zrange in Hi. apply in_map_iff in H as (t & <- & Ht).
      apply valid_index_cons. split; auto. now apply IH.
    + intros H. apply valid_index_cons_inv in H as (i & t & -> & Hi & Ht).
      exists i. split; [now apply in_zrange|]. apply in_map. now apply IH.
Qed.

Lemma range_index_nodup s : NoDup (range_index s).
Proof.
  induction s as [|n s IH]; simpl.
  - repeat constructor. easy.
  - apply NoDup_flat_map.
    + apply zrange_nodup.
    + intros i _. apply FinFun.Injective_map_NoDup; auto. intros a b; congruence.
    + intros a a' b _ _ H1 H2. apply in_map_iff in H1 as (? & <- & _).
      apply in_map_iff in H2 as (? & H2 & _). congruence.
Qed.

Lemma range_index_length s : nonneg_shape s -> Z.of_nat (length (range_index s)) = zprod s.
Proof.
  induction 1 as [|n s Hn Hs IH]; simpl; auto.
  rewrite <- IH.
  assert (H : forall l : list Z, length (flat_map (fun i => map (cons i) (range_index s)) l)
                      = (length l * length (range_index s))%nat).
  { induction l; simpl; auto. rewrite app_length, map_length. lia. }
  rewrite H, zrange_length. lia.
Qed.

Lemma row_major_bound s idx : valid_index s idx -> 0 <= row_major s idx < zprod s.
Proof.
  induction 1 as [|n i s t Hi Ht IH]; simpl; nia.
Qed.

Lemma row_major_inj s i j : valid_index s i -> valid_index s j ->
  row_major s i = row_major s j -> i = j.
Proof.
  intros Hi. revert j. induction Hi as [|n x s t Hx Ht IH]; intros j Hj E.
  - apply valid_index_nil in Hj. auto.
  - apply valid_index_cons_inv in Hj as (y & u & -> & Hy & Hu). simpl in E.
    pose proof (row_major_bound _ _ Ht). pose proof (row_major_bound _ _ Hu).
    assert (x = y) by nia. subst. f_equal. apply IH; auto. lia.
Qed.

Lemma flat_map_nth_error {A B} (f : A -> list B) l m k r a b :
  (forall a, In a l -> length (f a) = m) ->
  nth_error l k = Some a -> (r < m)%nat -> nth_error (f a) r = Some b ->
  nth_error (flat_map f l) (k * m + r) = Some b.
Proof.
  revert k. induction l as [|x l IH]; intros k Hm Hk Hr Hb.
  - destruct k; discriminate.
  - destruct k; simpl in *.
    + inv Hk. rewrite nth_error_app1; auto. rewrite Hm; auto.
    + assert (length (f x) = m) by auto.
      rewrite nth_error_app2 by lia.
      replace (m + k * m + r - length (f x))%nat with (k * m + r)%nat by lia.
      apply IH; auto.
Qed.

Lemma range_index_nth_row_major s idx : valid_index s idx ->
  nth_error (range_index s) (Z.to_nat (row_major s idx)) = Some idx.
Proof.
  induction 1 as [|n i s t Hi Ht IH]; simpl; auto.
  pose proof (row_major_bound _ _ Ht) as HB.
  assert (Hs : nonneg_shape s).
  { clear - Ht. induction Ht; constructor; auto. lia. }
  pose proof (range_index_length s Hs) as HL.
  replace (Z.to_nat (i * zprod s + row_major s t))
    with (Z.to_nat i * length (range_index s) + Z.to_nat (row_major s t))%nat by nia.
  eapply flat_map_nth_error with (a := i).
  - intros; now rewrite map_length.
  - rewrite zrange_nth_error by lia. f_equal. lia.
  - lia.
  - now apply map_nth_error.
Qed.

Lemma cartesian_c_loop_spec s idx acc : length idx = length s ->
  cartesian_c_loop acc s idx = acc * zprod s + row_major s idx.
Proof.
  revert idx acc. induction s as [|n s IH]; intros idx acc HL; destruct idx; try discriminate; simpl.
  - lia.
  - rewrite IH by auto. ring.
Qed.

Lemma cartesian_index_c_row_major s idx : length idx = length s ->
  cartesian_index_c s idx = row_major s idx.
Proof. intros. unfold cartesian_index_c. rewrite cartesian_c_loop_spec; auto. Qed.

Lemma cartesian_c_loop_app acc s1 i1 s2 i2 : length i1 = length s1 ->
  cartesian_c_loop acc (s1 ++ s2) (i1 ++ i2) =
  cartesian_c_loop (cartesian_c_loop acc s1 i1) s2 i2.
Proof.
  revert acc i1. induction s1; intros acc i1 HL; destruct i1; try discriminate; simpl; auto.
Qed.

Lemma cartesian_index_f_col_major s idx : length idx = length s ->
  cartesian_index_f s idx = col_major s idx.
Proof.
  unfold cartesian_index_f. revert idx. induction s as [|n s IH]; intros idx HL;
    destruct idx; try discriminate; simpl; auto.
  rewrite cartesian_c_loop_app by (rewrite !rev_length; simpl in HL; lia).
  rewrite IH by (simpl in HL; lia). simpl. lia.
Qed.

Lemma col_major_bound s idx : valid_index s idx -> 0 <= col_major s idx < zprod s.
Proof. induction 1 as [|n i s t Hi Ht IH]; simpl; nia. Qed.

Lemma col_major_inj s i j : valid_index s i -> valid_index s j ->
  col_major s i = col_major s j -> i = j.
Proof.
  intros Hi. revert j. induction Hi as [|n x s t Hx Ht IH]; intros j Hj E.
  - apply valid_index_nil in Hj. auto.
  - apply valid_index_cons_inv in Hj as (y & u & -> & Hy & Hu). simpl in E.
    pose proof (col_major_bound _ _ Ht). pose proof (col_major_bound _ _ Hu).
    assert (col_major s t = col_major s u) by nia.
    assert (x = y) by nia. subst. f_equal. apply IH; auto.
Qed.

Lemma col_major_surj s r : nonneg_shape s -> 0 <= r < zprod s ->
  exists idx, valid_index s idx /\ col_major s idx = r.
Proof.
  intros Hs. revert r. induction Hs as [|n s Hn Hs IH]; intros r Hr; simpl in Hr.
  - exists []. split; [constructor|]. simpl. lia.
  - assert (0 < n) by (destruct (Z.eq_dec n 0); [subst; lia|lia]).
    pose proof (Z.mod_pos_bound r n). pose proof (Z.div_mod r n).
    destruct (IH (r / n)) as (t & Ht & E).
    + split; [apply Z.div_pos; lia|]. apply Z.div_lt_upper_bound; lia.
    + exists (r mod n :: t). split.
      * apply valid_index_cons. split; auto.
      * simpl. rewrite E. lia.
Qed.

Lemma row_major_surj s r : nonneg_shape s -> 0 <= r < zprod s ->
  exists idx, valid_index s idx /\ row_major s idx = r.
Proof.
  intros Hs. revert r. induction Hs as [|n s Hn Hs IH]; intros r Hr; simpl in Hr.
  - exists []. split; [constructor|]. simpl. lia.
  - assert (0 <= zprod s) by now apply zprod_nonneg.
    assert (0 < zprod s).
    { destruct (Z.eq_dec (zprod s) 0) as [E|]; [rewrite E in Hr; lia|lia]. }
    pose proof (Z.mod_pos_bound r (zprod s)). pose proof (Z.div_mod r (zprod s)).
    destruct (IH (r mod zprod s)) as (t & Ht & E); [lia|].
    exists (r / zprod s :: t). split.
    + apply valid_index_cons. split; auto. split; [apply Z.div_pos; lia|].
      apply Z.div_lt_upper_bound; lia.
    + simpl. rewrite E. lia.
Qed.

Lemma valid_nonneg s idx : valid_index s idx -> nonneg_shape s.
Proof. induction 1; constructor; auto. lia. Qed.

(** worker_layout *)

Lemma fold_last_assign {A} (eqb : A -> A -> bool) (l : list (Z * A)) pos acc k v :
  (forall a b, eqb a b = true <-> a = b) ->
  NoDup (map snd l) -> nth_error l k = Some (v, pos) ->
  fold_left (fun acc ii => if eqb (snd ii) pos then fst ii else acc) l acc = v.
Proof.
  intros Heq. revert k acc. induction l as [|[z a] l IH]; intros k acc HN Hk.
  - destruct k; discriminate.
  - simpl in HN. inv HN. destruct k; simpl in *.
    + inv Hk. destruct (eqb pos pos) eqn:E.
      * clear E IH. revert v. induction l as [|[z' a'] l IHl]; intros v; simpl; auto.
        destruct (eqb a' pos) eqn:E.
        -- apply Heq in E. subst. simpl in H1. tauto.
        -- apply IHl; simpl in *; auto. inv H2; auto.
      * assert (eqb pos pos = true) by now apply Heq. congruence.
    + eapply IH; eauto.
Qed.

Lemma combine_nth_error {A B} (l1 : list A) (l2 : list B) k a b :
  nth_error l1 k = Some a -> nth_error l2 k = Some b ->
  nth_error (combine l1 l2) k = Some (a, b).
Proof.
  revert l1 l2. induction k; intros [|? ?] [|? ?]; simpl; try congruence. apply IHk.
Qed.

Lemma map_snd_combine {A B} (l1 : list A) (l2 : list B) :
  length l1 = length l2 -> map snd (combine l1 l2) = l2.
Proof.
  revert l2; induction l1; destruct l2; simpl; intros; try discriminate; auto.
  f_equal. apply IHl1. lia.
Qed.

Lemma worker_layout_spec s idx : valid_index s idx -> worker_layout s idx = row_major s idx.
Proof.
  intros H. unfold worker_layout.
  pose proof (range_index_nth_row_major s idx H) as HN.
  pose proof (row_major_bound s idx H) as HB.
  assert ((Z.to_nat (row_major s idx) < length (range_index s))%nat)
    by (apply nth_error_Some; congruence).
  eapply fold_last_assign with (k := Z.to_nat (row_major s idx)).
  - apply zlist_eqb_eq.
  - rewrite map_snd_combine.
    + apply range_index_nodup.
    + rewrite zrange_length. lia.
  - apply combine_nth_error; auto. rewrite zrange_nth_error by lia. f_equal. lia.
Qed.

(** * Intersections (C05) *)

Definition slice_points (base : list Z) (sl : list slice) (g : list Z) : Prop :=
  in_box (vadd base (map fst sl)) (vadd base (map snd sl)) g.

(** The core routine shared by [compute_partition_intersection] and
    [compute_subtensor_intersection_slice]. *)
Definition overlap_core (a_lo a_hi b_lo b_hi : list Z) : option (list slice) :=
  let '(i_start, i_stop, i_sub) := compute_intersection a_lo a_hi b_lo b_hi in
  if zprod i_sub =? 0 then None
  else
    let rel_start := map2 Z.sub i_start a_lo in
    let rel_stop := map2 Z.add rel_start i_sub in
    Some (assemble_slices rel_start rel_stop).

Fixpoint all_len (n : nat) (ls : list (list Z)) : Prop :=
  match ls with [] => True | l :: r => length l = n /\ all_len n r end.

Definition isub (a_lo a_hi b_lo b_hi : list Z) : list Z :=
  map (fun x => Z.max x 0) (map2 Z.sub (map2 Z.min a_hi b_hi) (map2 Z.max a_lo b_lo)).

Lemma isub_zero_iff a_lo a_hi b_lo b_hi :
  length a_hi = length a_lo -> length b_lo = length a_lo -> length b_hi = length a_lo ->
  (zprod (isub a_lo a_hi b_lo b_hi) = 0 <->
   ~ exists g, in_box a_lo a_hi g /\ in_box b_lo b_hi g).
Proof.
  unfold isub. revert a_hi b_lo b_hi.
  induction a_lo as [|a a_lo IH]; intros a_hi b_lo b_hi H1 H2 H3;
    destruct a_hi as [|a' a_hi], b_lo as [|b b_lo], b_hi as [|b' b_hi]; try discriminate; simpl.
  - split; [lia|]. intros H. exfalso. apply H. exists []. split; now apply in_box_nil.
  - injection H1 as H1. injection H2 as H2. injection H3 as H3.
    specialize (IH a_hi b_lo b_hi H1 H2 H3).
    split.
    + intros E. apply Z.mul_eq_0 in E as [E|E].
      * intros (g & Ha & Hb). apply in_box_cons_inv in Ha as (x & t & -> & Hx & Ht).
        apply in_box_cons in Hb as (Hx' & _). lia.
      * apply IH in E. intros (g & Ha & Hb). apply E.
        apply in_box_cons_inv in Ha as (x & t & -> & Hx & Ht).
        apply in_box_cons in Hb as (Hx' & Ht'). eauto.
    + intros N. destruct (Z.eq_dec (Z.max (Z.min a' b' - Z.max a b) 0) 0) as [E|E].
      * rewrite E. lia.
      * apply Z.mul_eq_0. right. apply IH. intros (g & Ha & Hb). apply N.
        exists (Z.max a b :: g). split; apply in_box_cons; split; auto; lia.
Qed.

Lemma overlap_core_none a_lo a_hi b_lo b_hi :
  length a_hi = length a_lo -> length b_lo = length a_lo -> length b_hi = length a_lo ->
  (overlap_core a_lo a_hi b_lo b_hi = None <->
   ~ exists g, in_box a_lo a_hi g /\ in_box b_lo b_hi g).
Proof.
  intros H1 H2 H3. unfold overlap_core, compute_intersection.
  rewrite <- (isub_zero_iff a_lo a_hi b_lo b_hi) by auto. unfold isub.
  destruct (_ =? 0) eqn:E; breflect; split; intros; auto; try discriminate; contradiction.
Qed.

Lemma overlap_core_points a_lo a_hi b_lo b_hi sl :
  length a_hi = length a_lo -> length b_lo = length a_lo -> length b_hi = length a_lo ->
  overlap_core a_lo a_hi b_lo b_hi = Some sl ->
  length sl = length a_lo /\
  (forall g, slice_points a_lo sl g <-> in_box a_lo a_hi g /\ in_box b_lo b_hi g) /\
  compute_nd_slice_shape sl = isub a_lo a_hi b_lo b_hi /\
  Forall (fun n => 0 < n) (compute_nd_slice_shape sl) /\
  (forall k, (k < length a_lo)%nat ->
     0 <= nth k (map fst sl) 0 /\
     nth k (map snd sl) 0 <= nth k a_hi 0 - nth k a_lo 0).
Proof.
  unfold overlap_core, compute_intersection. intros H1 H2 H3.
  destruct (_ =? 0) eqn:E; [discriminate|]. apply Z.eqb_neq in E. intros H. inv H.
  unfold slice_points, isub.
  revert a_hi b_lo b_hi H1 H2 H3 E. induction a_lo as [|a a_lo IH];
    intros a_hi b_lo b_hi H1 H2 H3 E;
    destruct a_hi as [|a' a_hi], b_lo as [|b b_lo], b_hi as [|b' b_hi]; try discriminate; simpl.
  - split; auto. split; [|split; [auto|split; [constructor|intros; lia]]].
    intros g. unfold vadd. simpl. tauto.
  - injection H1 as H1. injection H2 as H2. injection H3 as H3. simpl in E.
    apply Z.neq_mul_0 in E as [E1 E2].
    destruct (IH a_hi b_lo b_hi H1 H2 H3 E2) as (L & B & S & F & R).
    assert (M : 0 < Z.min a' b' - Z.max a b) by lia.
    split; [now rewrite L|]. split; [|split; [|split]].
    + intros g. split.
      * intros H. destruct g as [|x g]; [destruct H as (H & _); discriminate|].
        apply in_box_cons in H as (Hx & H). apply B in H as [Ha Hb].
        split; apply in_box_cons; split; auto; lia.
      * intros (Ha & Hb).
        apply in_box_cons_inv in Ha as (x & t & -> & Hx & Ht).
        apply in_box_cons in Hb as (Hx' & Ht').
        apply in_box_cons. split; [lia|]. apply B; auto.
    + f_equal; [lia|]. apply S.
    + constructor; [lia|auto].
    + intros [|k] Hk; [lia|]. apply (R k). lia.
Qed.

Lemma isub_sym a_lo a_hi b_lo b_hi : isub a_lo a_hi b_lo b_hi = isub b_lo b_hi a_lo a_hi.
Proof.
  unfold isub. f_equal. f_equal.
  - revert b_hi. induction a_hi; destruct b_hi; simpl; auto. now rewrite Z.min_comm, IHa_hi.
  - revert b_lo. induction a_lo; destruct b_lo; simpl; auto. now rewrite Z.max_comm, IHa_lo.
Qed.

(** * Filters (C06) *)

Lemma filter_matches_spec idx flt : length flt = length idx ->
  (filter_matches idx flt = true <->
   forall k v, nth_error flt k = Some (Some v) -> nth k idx 0 = v).
Proof.
  revert flt. induction idx as [|i idx IH]; intros flt HL; destruct flt as [|f flt];
    try discriminate; simpl.
  - split; auto. intros _ k v H. destruct k; discriminate.
  - specialize (IH flt ltac:(simpl in HL; lia)). destruct f as [v|].
    + destruct (i =? v) eqn:E; breflect; simpl.
      * rewrite IH. split; intros H k w Hk.
        -- destruct k; simpl in *; [congruence|]. now apply H.
        -- apply (H (S k) w). auto.
      * split; [discriminate|]. intros H. exfalso. apply E. apply (H 0%nat v). auto.
    + rewrite IH. split; intros H k w Hk.
      * destruct k; simpl in *; [congruence|]. now apply H.
      * apply (H (S k) w). auto.
Qed.

Lemma in_dims_spec k dims : in_dims k dims = true <-> In k dims.
Proof.
  unfold in_dims. rewrite existsb_exists. split.
  - intros (x & Hx & E). breflect. now subst.
  - intros H. exists k. split; auto. apply Z.eqb_refl.
Qed.

Lemma nth_error_seq s n k : (k < n)%nat -> nth_error (seq s n) k = Some (s + k)%nat.
Proof.
  revert s k. induction n; intros s k Hk; [lia|]. destruct k; simpl.
  - f_equal; lia.
  - rewrite IHn by lia. f_equal; lia.
Qed.

Lemma assemble_index_filter_nth index dims inv k : (k < length index)%nat ->
  nth_error (assemble_index_filter index dims inv) k =
  Some (if xorb inv (in_dims (Z.of_nat k) dims) then Some (nth k index 0) else None).
Proof.
  intros Hk. unfold assemble_index_filter.
  erewrite map_nth_error; [|now apply nth_error_seq]. simpl.
  destruct inv, (in_dims (Z.of_nat k) dims); reflexivity.
Qed.

Lemma assemble_index_filter_length index dims inv :
  length (assemble_index_filter index dims inv) = length index.
Proof. unfold assemble_index_filter. now rewrite map_length, seq_length. Qed.

Lemma filtered_spec s index dims inv idx : length index = length s ->
  (In idx (filtered_range_index s (assemble_index_filter index dims inv)) <->
   valid_index s idx /\
   forall k, (k < length s)%nat ->
     (if inv then ~ In (Z.of_nat k) dims else In (Z.of_nat k) dims) ->
     nth k idx 0 = nth k index 0).
Proof.
  intros HL. unfold filtered_range_index. rewrite filter_In, in_range_index.
  split; intros [Hv H]; split; auto.
  - pose proof (valid_index_length _ _ Hv) as HV.
    rewrite filter_matches_spec in H by (rewrite assemble_index_filter_length; lia).
    intros k Hk Hd. apply H. rewrite assemble_index_filter_nth by lia.
    destruct inv; simpl.
    + destruct (in_dims (Z.of_nat k) dims) eqn:E; auto.
      apply in_dims_spec in E. contradiction.
    + apply in_dims_spec in Hd. now rewrite Hd.
  - pose proof (valid_index_length _ _ Hv) as HV.
    rewrite filter_matches_spec by (rewrite assemble_index_filter_length; lia).
    intros k v Hk.
    assert (Hlt : (k < length index)%nat).
    { rewrite <- (assemble_index_filter_length index dims inv). apply nth_error_Some. congruence. }
    rewrite assemble_index_filter_nth in Hk by auto.
    destruct (xorb inv (in_dims (Z.of_nat k) dims)) eqn:E; [|discriminate].
    injection Hk as <-. apply H; [lia|].
    destruct inv.
    + intros C. apply in_dims_spec in C. rewrite C in E. discriminate.
    + destruct (in_dims (Z.of_nat k) dims) eqn:D; [|discriminate]. now apply in_dims_spec.
Qed.

(** * Order of the enumeration (C04, C06) *)

From Coq Require Import Sorting.Sorted.

Lemma StronglySorted_app {A} (R : A -> A -> Prop) l1 l2 :
  StronglySorted R l1 -> StronglySorted R l2 ->
  (forall a b, In a l1 -> In b l2 -> R a b) -> StronglySorted R (l1 ++ l2).
Proof.
  intros H1 H2 H. induction H1 as [|x l Hl IH Hx]; simpl; auto. constructor.
  - apply IH. intros a b Ha Hb. apply H; simpl; auto.
  - apply Forall_app. split; auto. apply Forall_forall. intros b Hb. apply H; simpl; auto.
Qed.

Lemma StronglySorted_map {A B} (f : A -> B) (R : B -> B -> Prop) (S : A -> A -> Prop) l :
  (forall a b, In a l -> In b l -> S a b -> R (f a) (f b)) ->
  StronglySorted S l -> StronglySorted R (map f l).
Proof.
  intros H HS. induction HS as [|x l Hl IH Hx]; simpl; constructor.
  - apply IH. intros a b Ha Hb. apply H; simpl; auto.
  - apply Forall_forall. intros b Hb. apply in_map_iff in Hb as (a & <- & Ha).
    rewrite Forall_forall in Hx. apply H; simpl; auto.
Qed.

Lemma StronglySorted_filter {A} (R : A -> A -> Prop) p l :
  StronglySorted R l -> StronglySorted R (filter p l).
Proof.
  induction 1 as [|x l Hl IH Hx]; simpl; [constructor|]. destruct (p x); auto. constructor; auto.
  rewrite Forall_forall in *. intros y Hy. apply filter_In in Hy as []. auto.
Qed.

Lemma range_index_sorted s : nonneg_shape s ->
  StronglySorted (fun a b => row_major s a < row_major s b) (range_index s).
Proof.
  induction 1 as [|n s Hn Hs IH]; simpl.
  - repeat constructor.
  - rewrite <- (Z2Nat.id n) by auto. clear Hn. induction (Z.to_nat n) as [|k IHk].
    + rewrite zrange_nonpos by lia. constructor.
    + rewrite Nat2Z.inj_succ. unfold Z.succ. rewrite zrange_succ by lia.
      rewrite flat_map_app. apply StronglySorted_app; auto.
      * simpl. rewrite app_nil_r. apply StronglySorted_map with (S := fun a b => row_major s a < row_major s b); auto.
        intros a b _ _ H. cbn [row_major]. lia.
      * intros a b Ha Hb. apply in_flat_map in Ha as (i & Hi & Ha).
        apply in_zrange in Hi. apply in_map_iff in Ha as (t & <- & Ht).
        simpl in Hb. rewrite app_nil_r in Hb. apply in_map_iff in Hb as (u & <- & Hu).
        apply in_range_index in Ht, Hu.
        pose proof (row_major_bound _ _ Ht). pose proof (row_major_bound _ _ Hu).
        cbn [row_major].
        assert (i * zprod s + zprod s <= Z.of_nat k * zprod s) by nia. lia.
Qed.
