(** Lemmas about partitions (C07-C09, C11-C13). *)

From Verif Require Import Prelude ModelSlicing ModelPartition SpecIndex SpecPartition ProofSlicing.

(** * where_eq, rank_in, incl_ranks *)

Lemma where_eq_from_in k x l r :
  In r (where_eq_from k x l) <-> exists j, r = k + Z.of_nat j /\ nth_error l j = Some x.
Proof.
  revert k. induction l as [|y l IH]; intros k; simpl.
  - split; [easy|]. intros ([|j] & _ & H); discriminate.
  - assert (E : In r (where_eq_from (k + 1) x l) <->
               exists j, r = k + Z.of_nat (S j) /\ nth_error (y :: l) (S j) = Some x).
    { rewrite IH. split; intros (j & -> & H); exists j; split; auto; lia. }
    destruct (Z.eqb_spec y x) as [->|Hne]; simpl; rewrite E; split.
    + intros [<-|(j & H)]; [exists 0%nat; split; [lia|auto]|eauto].
    + intros ([|j] & -> & H); [left; lia|right; eauto].
    + intros (j & H); eauto.
    + intros ([|j] & -> & H); [simpl in H; congruence|eauto].
Qed.

Lemma where_eq_in x l r :
  In r (where_eq x l) <-> 0 <= r /\ nth_error l (Z.to_nat r) = Some x.
Proof.
  unfold where_eq. rewrite where_eq_from_in. split.
  - intros (j & -> & H). split; [lia|]. now replace (Z.to_nat (0 + Z.of_nat j)) with j by lia.
  - intros (H0 & H). exists (Z.to_nat r). split; auto. lia.
Qed.

Lemma where_eq_from_sorted k x l : Sorted.StronglySorted Z.lt (where_eq_from k x l).
Proof.
  revert k. induction l as [|y l IH]; intros k; simpl; [constructor|].
  destruct (y =? x); auto. constructor; auto.
  apply Forall_forall. intros r Hr. apply where_eq_from_in in Hr as (j & -> & _). lia.
Qed.

Lemma StronglySorted_lt_NoDup l : Sorted.StronglySorted Z.lt l -> NoDup l.
Proof.
  induction 1 as [|x l Hl IH Hx]; constructor; auto.
  intros C. rewrite Forall_forall in Hx. apply Hx in C. lia.
Qed.

Lemma where_eq_nodup x l : NoDup (where_eq x l).
Proof. apply StronglySorted_lt_NoDup, where_eq_from_sorted. Qed.

Lemma rank_in_some ranks v r : rank_in ranks v = Some r ->
  0 <= r /\ nth_error ranks (Z.to_nat r) = Some v.
Proof.
  unfold rank_in. destruct (find_idx (Z.eqb v) ranks) as [k|] eqn:E; [|discriminate].
  intros H. inv H. apply find_idx_some in E as (a & Ha & Pa & _). breflect. subst.
  split; [lia|]. now rewrite Nat2Z.id.
Qed.

Lemma rank_in_spec ranks v r : NoDup ranks ->
  (rank_in ranks v = Some r <-> 0 <= r /\ nth_error ranks (Z.to_nat r) = Some v).
Proof.
  intros HN. split; [apply rank_in_some|]. intros (H0 & H). unfold rank_in.
  rewrite find_idx_unique with (k := Z.to_nat r) (a := v); auto.
  - simpl. f_equal. lia.
  - apply Z.eqb_refl.
  - intros j b Hj Eb. breflect. subst. eapply NoDup_nth_error_inj; eauto.
Qed.

Lemma rank_in_none ranks v : rank_in ranks v = None <-> ~ In v ranks.
Proof.
  unfold rank_in. split.
  - destruct (find_idx _ _) eqn:E; [discriminate|]. intros _ H.
    rewrite find_idx_none in E. apply E in H. rewrite Z.eqb_refl in H. discriminate.
  - intros H. destruct (find_idx _ _) eqn:E; auto. exfalso.
    apply find_idx_some in E as (a & Ha & Pa & _). breflect. subst.
    apply H. eapply nth_error_In; eauto.
Qed.

Lemma rank_in_In ranks v : In v ranks -> exists r, rank_in ranks v = Some r.
Proof.
  intros H. destruct (rank_in ranks v) eqn:E; eauto. apply rank_in_none in E. contradiction.
Qed.

Lemma is_active_spec ranks v : is_active ranks v = true <-> In v ranks.
Proof.
  unfold is_active. destruct (rank_in ranks v) eqn:E.
  - split; auto. intros _. apply rank_in_some in E as [_ E]. eapply nth_error_In; eauto.
  - apply rank_in_none in E. split; easy.
Qed.

Lemma is_active_false ranks v : is_active ranks v = false <-> ~ In v ranks.
Proof. rewrite <- is_active_spec. destruct (is_active ranks v); split; congruence. Qed.

(** * Coordinates *)

Lemma cart_coords_spec s r : pos_shape s -> 0 <= r < zprod s ->
  valid_index s (cart_coords s r) /\ row_major s (cart_coords s r) = r.
Proof.
  intros Hs. revert r. induction Hs as [|n s Hn Hs IH]; intros r Hr.
  - simpl in *. split; [constructor|lia].
  - cbn [cart_coords row_major]. change (zprod (n :: s)) with (n * zprod s) in Hr.
    assert (Hp : 0 < zprod s) by now apply zprod_pos.
    pose proof (Z.mod_pos_bound r (zprod s) Hp) as Hm.
    pose proof (Z.div_mod r (zprod s)) as Hd.
    destruct (IH (r mod zprod s) Hm) as [IH1 IH2]. rewrite IH2. split; [|lia].
    apply valid_index_cons. split; auto. split; [apply Z.div_pos; lia|].
    apply Z.div_lt_upper_bound; lia.
Qed.

Lemma cart_coords_row_major s idx : pos_shape s -> valid_index s idx ->
  cart_coords s (row_major s idx) = idx.
Proof.
  intros Hs Hv. pose proof (row_major_bound s idx Hv) as HB.
  destruct (cart_coords_spec s (row_major s idx) Hs HB) as [H1 H2].
  eapply row_major_inj; eauto.
Qed.

Lemma index_in_spec P v idx : part_ok P -> (index_in P v = Some idx <-> worker_at P idx v).
Proof.
  intros (HN & _ & Hp & HL). unfold index_in, worker_at. split.
  - destruct (rank_in (p_ranks P) v) as [r|] eqn:E; [|discriminate].
    simpl. intros H. inv H. apply rank_in_some in E as [H0 E].
    assert ((Z.to_nat r < length (p_ranks P))%nat) by (apply nth_error_Some; congruence).
    destruct (cart_coords_spec (p_shape P) r Hp) as [H1 H2]; [lia|]. split; auto. now rewrite H2.
  - intros [Hv H]. pose proof (row_major_bound _ _ Hv).
    assert (E : rank_in (p_ranks P) v = Some (row_major (p_shape P) idx))
      by (apply rank_in_spec; auto; split; auto; lia).
    rewrite E. simpl. f_equal. now apply cart_coords_row_major.
Qed.

Lemma index_in_none P v : index_in P v = None <-> ~ In v (p_ranks P).
Proof.
  unfold index_in. rewrite <- rank_in_none. destruct (rank_in (p_ranks P) v); simpl; split; congruence.
Qed.

Lemma worker_at_exists P v : part_ok P -> In v (p_ranks P) -> exists idx, worker_at P idx v.
Proof.
  intros HP H. destruct (index_in P v) as [idx|] eqn:E.
  - exists idx. now apply index_in_spec.
  - apply index_in_none in E. contradiction.
Qed.

Lemma worker_at_In P idx v : worker_at P idx v -> In v (p_ranks P).
Proof. intros [_ H]. eapply nth_error_In; eauto. Qed.

Lemma worker_at_fun P idx idx' v : part_ok P -> worker_at P idx v -> worker_at P idx' v -> idx = idx'.
Proof. intros HP H1 H2. apply index_in_spec in H1, H2; auto. congruence. Qed.

Lemma worker_at_inj P idx v v' : worker_at P idx v -> worker_at P idx v' -> v = v'.
Proof. intros [_ H1] [_ H2]. congruence. Qed.

Lemma worker_exists P idx : part_ok P -> valid_index (p_shape P) idx -> exists v, worker_at P idx v.
Proof.
  intros (_ & _ & _ & HL) Hv. pose proof (row_major_bound _ _ Hv).
  destruct (nth_error (p_ranks P) (Z.to_nat (row_major (p_shape P) idx))) as [v|] eqn:E.
  - exists v. split; auto.
  - apply nth_error_None in E. lia.
Qed.

Lemma part_ok_nonempty P : part_ok P -> p_ranks P <> [].
Proof.
  intros (_ & _ & Hp & HL) E. rewrite E in HL. apply zprod_pos in Hp. simpl in HL. lia.
Qed.

(** * Unions (C12) *)

Lemma group_union_in g1 g2 v : In v (group_union g1 g2) <-> In v g1 \/ In v g2.
Proof.
  unfold group_union. rewrite in_app_iff, filter_In. split; [tauto|].
  intros [H|H]; auto. destruct (existsb (Z.eqb v) g1) eqn:E.
  - apply existsb_exists in E as (x & Hx & E). breflect. subst. auto.
  - right. split; auto.
Qed.

Lemma group_union_nodup g1 g2 : NoDup g1 -> NoDup g2 -> NoDup (group_union g1 g2).
Proof.
  intros H1 H2. unfold group_union. apply NoDup_app; auto using NoDup_filter.
  intros a Ha Hb. apply filter_In in Hb as [_ Hb].
  assert (existsb (Z.eqb a) g1 = true) by (apply existsb_exists; exists a; split; auto; apply Z.eqb_refl).
  rewrite H in Hb. discriminate.
Qed.

Lemma broadcast_data_spec {A} ranks data_ranks (data : Z -> A) root u : NoDup data_ranks ->
  In u ranks -> 0 <= root -> nth_error data_ranks (Z.to_nat root) = Some u ->
  broadcast_data ranks data_ranks data root = Ok (data u).
Proof.
  intros HN Hu H0 Hr. unfold broadcast_data.
  set (rm := map _ ranks).
  assert (Hw : forall k, In k (where_eq root rm) -> nth (Z.to_nat k) ranks 0 = u).
  { intros k Hk. apply where_eq_in in Hk as [Hk0 Hk]. unfold rm in Hk.
    rewrite nth_error_map in Hk.
    destruct (nth_error ranks (Z.to_nat k)) as [x|] eqn:Ex; [|discriminate]. simpl in Hk.
    erewrite nth_error_nth by eauto.
    destruct (rank_in data_ranks x) as [r|] eqn:Er.
    - inv Hk. apply rank_in_some in Er as [_ Er]. congruence.
    - inv Hk. lia. }
  destruct (where_eq root rm) as [|k l] eqn:E.
  - exfalso. destruct (In_nth_error _ _ Hu) as [j Hj].
    assert (In (Z.of_nat j) (where_eq root rm)).
    { apply where_eq_in. split; [lia|]. rewrite Nat2Z.id. unfold rm.
      rewrite nth_error_map, Hj. simpl. f_equal.
      assert (Hri : rank_in data_ranks u = Some root) by (apply rank_in_spec; auto).
      now rewrite Hri. }
    rewrite E in H. easy.
  - rewrite Hw; auto. now left.
Qed.

Lemma broadcast_data_first {A} ranks P (data : Z -> A) c : part_ok P ->
  (forall v, In v (p_ranks P) -> In v ranks) -> (forall v, In v (p_ranks P) -> data v = c) ->
  broadcast_data ranks (p_ranks P) data 0 = Ok c.
Proof.
  intros HP Hin Hc. pose proof (part_ok_nonempty P HP) as HE.
  destruct (p_ranks P) as [|u l] eqn:E; [congruence|].
  rewrite broadcast_data_spec with (u := u); auto.
  - rewrite Hc; auto. now left.
  - rewrite <- E. apply HP.
  - apply Hin. now left.
  - lia.
Qed.

(** * rmap *)

Lemma rmap_ok {A B} (f : A -> result B) (g : A -> B) l :
  (forall a, In a l -> f a = Ok (g a)) -> rmap f l = Ok (map g l).
Proof.
  induction l as [|a l IH]; intros H; simpl; auto.
  rewrite H by now left. simpl. rewrite IH; auto. intros; apply H; now right.
Qed.

(** * Groups from colours *)

Lemma incl_where_from pre l (f : Z -> Z) (p : Z -> bool) x :
  incl_ranks (pre ++ l)
    (filter (fun k => p (nth (Z.to_nat k) (pre ++ l) 0))
            (where_eq_from (Z.of_nat (length pre)) x (map f l))) =
  filter p (filter (fun u => f u =? x) l).
Proof.
  revert pre. induction l as [|y l IH]; intros pre; simpl; auto.
  specialize (IH (pre ++ [y])). rewrite <- app_assoc in IH. simpl in IH.
  rewrite app_length in IH. simpl in IH.
  replace (Z.of_nat (length pre + 1)) with (Z.of_nat (length pre) + 1) in IH by lia.
  assert (Hn : nth (Z.to_nat (Z.of_nat (length pre))) (pre ++ y :: l) 0 = y).
  { rewrite Nat2Z.id, app_nth2 by lia. now rewrite Nat.sub_diag. }
  destruct (f y =? x); [|apply IH]. simpl. rewrite Hn.
  destruct (p y); [|apply IH]. unfold incl_ranks in *. simpl. rewrite Hn. f_equal. apply IH.
Qed.

Lemma incl_where l (f : Z -> Z) (p : Z -> bool) x :
  incl_ranks l (filter (fun k => p (nth (Z.to_nat k) l 0)) (where_eq x (map f l))) =
  filter p (filter (fun u => f u =? x) l).
Proof. apply (incl_where_from [] l f p x). Qed.

(** The group with colour [c] whose root is [r], in terms of workers. *)
Definition colour_group (union : list Z) (dc : Z -> Z) (r c : Z) : list Z :=
  r :: filter (fun u => negb (u =? r)) (filter (fun u => dc u =? c) union).

Lemma colour_group_in union dc r c v :
  In v (colour_group union dc r c) <-> v = r \/ (In v union /\ dc v = c).
Proof.
  unfold colour_group. simpl. rewrite !filter_In. split.
  - intros [<-|[[H1 H2] H3]]; auto. breflect. auto.
  - intros [->|[H1 H2]]; auto. destruct (Z.eqb_spec v r) as [->|N]; auto.
    right. split; [split; auto; now apply Z.eqb_eq|reflexivity].
Qed.

Lemma colour_group_nodup union dc r c : NoDup union -> NoDup (colour_group union dc r c).
Proof.
  intros H. unfold colour_group. constructor.
  - rewrite filter_In. intros [_ C]. rewrite Z.eqb_refl in C. discriminate.
  - now apply NoDup_filter, NoDup_filter.
Qed.

Section ColourGroups.
  Variable union : list Z.
  Variables sc dc : Z -> Z.
  Hypothesis union_nodup : NoDup union.

  Lemma build_groups_colours c r : In r union -> sc r = c ->
    (forall u, In u union -> sc u = c -> u = r) ->
    exists g, build_cross_partition_groups true c (map sc union) (map dc union) = Ok (Some g) /\
      incl_ranks union g = colour_group union dc r c /\
      (exists r0 g', g = r0 :: g' /\ 0 <= r0 /\ nth_error union (Z.to_nat r0) = Some r) /\
      (forall k, In k g -> 0 <= k < Z.of_nat (length union)).
  Proof.
    intros Hr Hsc Huniq. unfold build_cross_partition_groups.
    assert (Hroots : forall k, In k (where_eq c (map sc union)) ->
              0 <= k /\ nth_error union (Z.to_nat k) = Some r).
    { intros k Hk. apply where_eq_in in Hk as [H0 Hk]. split; auto.
      rewrite nth_error_map in Hk.
      destruct (nth_error union (Z.to_nat k)) as [x|] eqn:E; [|discriminate]. inv Hk.
      f_equal. apply Huniq; auto. eapply nth_error_In; eauto. }
    destruct (where_eq c (map sc union)) as [|r0 rest] eqn:E.
    - exfalso. destruct (In_nth_error _ _ Hr) as [j Hj].
      assert (H : In (Z.of_nat j) (where_eq c (map sc union))).
      { apply where_eq_in. split; [lia|]. rewrite Nat2Z.id, nth_error_map, Hj. simpl. congruence. }
      rewrite E in H. easy.
    - destruct (Hroots r0 (or_introl eq_refl)) as [Hr0 Hn0].
      assert (Hlt : forall k x, nth_error union k = Some x -> Z.of_nat k < Z.of_nat (length union)).
      { intros k x Hk. assert ((k < length union)%nat) by (apply nth_error_Some; congruence). lia. }
      eexists. split; [reflexivity|]. split; [|split].
      + unfold incl_ranks at 1. cbn [map]. unfold colour_group. f_equal.
        * now apply nth_error_nth.
        * rewrite <- (incl_where union dc (fun u => negb (u =? r)) c). unfold incl_ranks. f_equal.
          apply filter_ext_in. intros k Hk. f_equal.
          apply where_eq_in in Hk as [Hk0 Hk]. rewrite nth_error_map in Hk.
          destruct (nth_error union (Z.to_nat k)) as [x|] eqn:Ex; [|discriminate].
          erewrite nth_error_nth by eauto.
          destruct (Z.eqb_spec k r0) as [->|N1], (Z.eqb_spec x r) as [->|N2]; auto; exfalso.
          -- congruence.
          -- apply N1. assert (Z.to_nat k = Z.to_nat r0) by (eapply NoDup_nth_error_inj; eauto). lia.
      + eauto.
      + intros k [<-|Hk].
        * specialize (Hlt _ _ Hn0). lia.
        * apply filter_In in Hk as [Hk _]. apply where_eq_in in Hk as [Hk0 Hk].
          rewrite nth_error_map in Hk.
          destruct (nth_error union (Z.to_nat k)) as [x|] eqn:Ex; [|discriminate].
          specialize (Hlt _ _ Ex). lia.
  Qed.
End ColourGroups.

(** * Matching dimensions *)

Lemma select_length_le {A} mask (l l' : list A) : length l = length l' ->
  length (select mask l) = length (select mask l').
Proof.
  revert l l'. induction mask as [|b mask IH]; intros [|x l] [|y l'] H; try discriminate; auto.
  simpl in *. destruct b; simpl; auto.
Qed.

Definition compat_full (S D : list Z) : Prop := Forall2 (fun a b => a = b \/ a = 1) S D.

Lemma compat_full_existsb S D : length S = length D ->
  (existsb (fun sd => negb (fst sd =? snd sd) && negb (fst sd =? 1)) (combine S D) = false
   <-> compat_full S D).
Proof.
  revert D. induction S as [|s S IH]; intros [|d D] H; try discriminate; simpl.
  - split; auto. constructor.
  - split.
    + intros E. apply orb_false_iff in E as [E1 E2]. constructor.
      * destruct (Z.eqb_spec s d); auto. destruct (Z.eqb_spec s 1); auto. discriminate.
      * apply IH; auto.
    + intros E. inv E. apply orb_false_iff. split; [|apply IH; auto].
      destruct H3 as [->| ->].
      * now rewrite Z.eqb_refl.
      * rewrite (Z.eqb_refl 1). simpl. apply andb_false_r.
Qed.

Lemma select_shapes_eq S D : select (map2 Z.eqb S D) S = select (map2 Z.eqb S D) D.
Proof.
  revert D. induction S as [|s S IH]; intros [|d D]; simpl; auto.
  destruct (Z.eqb_spec s d) as [->|]; [f_equal|]; apply IH.
Qed.

Lemma select_valid mask S a : valid_index S a -> valid_index (select mask S) (select mask a).
Proof.
  intros H. revert mask. induction H as [|n i S a Hi Ha IH]; intros [|b mask]; simpl; try constructor.
  destruct b; [constructor; auto|]; apply IH.
Qed.

Definition proj_full (S b : list Z) : list Z := map2 (fun s i => if s =? 1 then 0 else i) S b.

Lemma proj_full_valid S D b : compat_full S D -> valid_index D b -> valid_index S (proj_full S b).
Proof.
  intros H. revert b. induction H as [|s d S D Hsd H IH]; intros b Hb.
  - apply valid_index_nil in Hb. subst. constructor.
  - apply valid_index_cons_inv in Hb as (i & t & -> & Hi & Ht).
    unfold proj_full in *. simpl. apply valid_index_cons. split; [|apply IH; auto].
    destruct (Z.eqb_spec s 1); [lia|]. destruct Hsd; lia.
Qed.

Lemma select_eq_proj S D a b : compat_full S D -> valid_index S a -> valid_index D b ->
  (select (map2 Z.eqb S D) a = select (map2 Z.eqb S D) b <-> a = proj_full S b).
Proof.
  intros H. revert a b. induction H as [|s d S D Hsd H IH]; intros a b Ha Hb.
  - apply valid_index_nil in Ha, Hb. subst. tauto.
  - apply valid_index_cons_inv in Ha as (x & t & -> & Hx & Ht).
    apply valid_index_cons_inv in Hb as (y & u & -> & Hy & Hu).
    specialize (IH t u Ht Hu). unfold proj_full in *. simpl.
    destruct (Z.eqb_spec s d) as [->|Hne].
    + destruct (Z.eqb_spec d 1) as [->|Hn1]; split; intros E; inv E; f_equal; try lia; apply IH; auto.
    + assert (s = 1) by tauto. subst s. simpl.
      split; intros E.
      * f_equal; [lia|now apply IH].
      * inv E. now apply IH.
Qed.

Lemma select_inj S D a a' : compat_full S D -> valid_index S a -> valid_index S a' ->
  select (map2 Z.eqb S D) a = select (map2 Z.eqb S D) a' -> a = a'.
Proof.
  intros H. revert a a'. induction H as [|s d S D Hsd H IH]; intros a b Ha Hb E.
  - apply valid_index_nil in Ha, Hb. congruence.
  - apply valid_index_cons_inv in Ha as (x & t & -> & Hx & Ht).
    apply valid_index_cons_inv in Hb as (y & u & -> & Hy & Hu). simpl in E.
    destruct (Z.eqb_spec s d) as [->|Hne].
    + inv E. f_equal. apply IH; auto.
    + assert (s = 1) by tauto. subst s. f_equal; [lia|]. apply IH; auto.
Qed.

Lemma flat_index_bound t s i : valid_index s i -> 0 <= flat_index t s i < zprod s.
Proof.
  intros H. unfold flat_index. pose proof (valid_index_length _ _ H). destruct t.
  - rewrite cartesian_index_f_col_major by auto. now apply col_major_bound.
  - rewrite cartesian_index_c_row_major by auto. now apply row_major_bound.
Qed.

Lemma flat_index_inj t s i j : valid_index s i -> valid_index s j ->
  flat_index t s i = flat_index t s j -> i = j.
Proof.
  intros H1 H2. pose proof (valid_index_length _ _ H1). pose proof (valid_index_length _ _ H2).
  unfold flat_index. destruct t.
  - rewrite !cartesian_index_f_col_major by auto. now apply col_major_inj.
  - rewrite !cartesian_index_c_row_major by auto. now apply row_major_inj.
Qed.

Lemma select_In {A} mask (l : list A) x : In x (select mask l) -> In x l.
Proof.
  revert l. induction mask as [|b mask IH]; intros [|y l]; simpl; try easy.
  destruct b; simpl; intros H; [destruct H as [->|H]|]; auto.
Qed.

Lemma unselect_src S D i : compat_full S D -> valid_index (select (map2 Z.eqb S D) S) i ->
  exists a, valid_index S a /\ select (map2 Z.eqb S D) a = i.
Proof.
  intros H. revert i. induction H as [|s d S D Hsd H IH]; intros i Hi; simpl in *.
  - apply valid_index_nil in Hi. subst. exists []. split; [constructor|auto].
  - destruct (Z.eqb_spec s d) as [->|N].
    + apply valid_index_cons_inv in Hi as (x & t & -> & Hx & Ht).
      destruct (IH t Ht) as (a & Ha & Ea). exists (x :: a). split.
      * now apply valid_index_cons.
      * congruence.
    + destruct (IH i Hi) as (a & Ha & Ea). exists (0 :: a). split; auto.
      apply valid_index_cons. split; auto. destruct Hsd; lia.
Qed.

Lemma unselect_dst S D i : pos_shape D -> length S = length D ->
  valid_index (select (map2 Z.eqb S D) D) i ->
  exists b, valid_index D b /\ select (map2 Z.eqb S D) b = i.
Proof.
  intros H. revert S i. induction H as [|d D Hd H IH]; intros [|s S] i HL Hi; try discriminate; simpl in *.
  - apply valid_index_nil in Hi. subst. exists []. split; [constructor|auto].
  - destruct (Z.eqb_spec s d) as [->|N].
    + apply valid_index_cons_inv in Hi as (x & t & -> & Hx & Ht).
      destruct (IH S t ltac:(lia) Ht) as (a & Ha & Ea). exists (x :: a). split.
      * now apply valid_index_cons.
      * congruence.
    + destruct (IH S i ltac:(lia) Hi) as (a & Ha & Ea). exists (0 :: a). split; auto.
      apply valid_index_cons. split; auto. lia.
Qed.

Lemma flat_index_surj t s c : nonneg_shape s -> 0 <= c < zprod s ->
  exists i, valid_index s i /\ flat_index t s i = c.
Proof.
  intros Hs Hc. unfold flat_index. destruct t.
  - destruct (col_major_surj s c Hs Hc) as (i & Hi & E). exists i. split; auto.
    rewrite cartesian_index_f_col_major; auto. now apply valid_index_length.
  - destruct (row_major_surj s c Hs Hc) as (i & Hi & E). exists i. split; auto.
    rewrite cartesian_index_c_row_major; auto. now apply valid_index_length.
Qed.

(** * Padding *)

Lemma pad_left_ok n fill l : l <> [] -> pad_left n fill l = Ok (repeat fill (n - length l) ++ l).
Proof. destruct l; [congruence|reflexivity]. Qed.

Lemma flip_length t l : length (flip t l) = length l.
Proof. destruct t; simpl; auto. apply rev_length. Qed.

Lemma flip_nonempty t l : l <> [] -> flip t l <> [].
Proof. intros H E. apply (f_equal (@length Z)) in E. rewrite flip_length in E. now destruct l. Qed.

Lemma Forall2_rev {A B} (R : A -> B -> Prop) l1 l2 : Forall2 R l1 l2 -> Forall2 R (rev l1) (rev l2).
Proof. induction 1; simpl; auto. apply Forall2_app; auto. Qed.

Lemma rev_repeat' {A} (x : A) n : rev (repeat x n) = repeat x n.
Proof.
  induction n as [|n IH]; simpl; auto. rewrite IH. clear IH.
  induction n as [|n IH]; simpl; auto. now rewrite IH.
Qed.

Lemma valid_index_rev s i : valid_index s i -> valid_index (rev s) (rev i).
Proof. apply Forall2_rev. Qed.

Lemma valid_index_flip t s i : valid_index s i <-> valid_index (flip t s) (flip t i).
Proof.
  destruct t; simpl; [|tauto]. split; [apply valid_index_rev|].
  intros H. apply valid_index_rev in H. now rewrite !rev_involutive in H.
Qed.

Lemma flip_inj t a b : flip t a = flip t b -> a = b.
Proof.
  destruct t; simpl; auto. intros E. apply (f_equal (@rev Z)) in E. now rewrite !rev_involutive in E.
Qed.

Lemma flip_flip t l : flip t (flip t l) = l.
Proof. destruct t; simpl; auto. apply rev_involutive. Qed.

Lemma valid_pad k s i : valid_index (repeat 1 k ++ s) (repeat 0 k ++ i) <-> valid_index s i.
Proof.
  induction k as [|k IH]; simpl; [tauto|]. rewrite valid_index_cons, IH. intuition lia.
Qed.

Lemma valid_pad_inv k s a : valid_index (repeat 1 k ++ s) a ->
  exists a', a = repeat 0 k ++ a' /\ valid_index s a'.
Proof.
  revert a. induction k as [|k IH]; simpl; intros a Ha; [eauto|].
  apply valid_index_cons_inv in Ha as (x & t & -> & Hx & Ht).
  destruct (IH t Ht) as (a' & -> & Ha'). exists a'. split; auto. f_equal. lia.
Qed.

Lemma compat_pad (s d : list Z) : (length s <= length d)%nat ->
  (compat_full (repeat 1 (length d - length s) ++ s) d <-> bc_compatible s d).
Proof.
  intros HL. unfold bc_compatible, trailing, compat_full.
  assert (G : forall k, (k + length s = length d)%nat ->
    (Forall2 (fun a b => a = b \/ a = 1) (repeat 1 k ++ s) d <->
     Forall2 (fun a b => a = b \/ a = 1) s (skipn k d))).
  { intros k. revert d HL. induction k as [|k IH]; intros d HL Hk; simpl; [tauto|].
    destruct d as [|x d]; [simpl in Hk; lia|]. simpl. simpl in Hk.
    destruct (Nat.le_gt_cases (length s) (length d)); [|lia].
    rewrite <- IH by lia. split; intros H'; [now inv H'|constructor; auto]. }
  rewrite G by lia. tauto.
Qed.

Lemma bc_compatible_dec s d : {bc_compatible s d} + {~ bc_compatible s d}.
Proof.
  destruct (le_lt_dec (length s) (length d)) as [L|L].
  2:{ right. intros [H _]. lia. }
  destruct (existsb (fun sd => negb (fst sd =? snd sd) && negb (fst sd =? 1))
              (combine (repeat 1 (length d - length s) ++ s) d)) eqn:E.
  - right. intros H. apply compat_pad in H; auto. apply compat_full_existsb in H; [congruence|].
    rewrite app_length, repeat_length. lia.
  - left. apply compat_pad; auto. apply compat_full_existsb; auto.
    rewrite app_length, repeat_length. lia.
Qed.

Lemma proj_pad s b : (length s <= length b)%nat ->
  proj_full (repeat 1 (length b - length s) ++ s) b
  = repeat 0 (length b - length s) ++ project s b.
Proof.
  intros HL. unfold project, trailing.
  assert (G : forall k, (k + length s = length b)%nat ->
    proj_full (repeat 1 k ++ s) b =
    repeat 0 k ++ map2 (fun a i => if a =? 1 then 0 else i) s (skipn k b)).
  { intros k. revert b HL. induction k as [|k IH]; intros b HL Hk; simpl; auto.
    destruct b as [|x b]; [simpl in Hk; lia|]. simpl in *. unfold proj_full in *. simpl.
    f_equal. apply IH; lia. }
  apply G. lia.
Qed.

(** * The colours computed by the broadcast routine *)

Section Broadcast.
  Variables Ps Pd : part.
  Variables ts td : bool.
  Hypothesis Ps_ok : part_ok Ps.
  Hypothesis Pd_ok : part_ok Pd.
  Hypothesis same_root : p_root Ps = p_root Pd.

  Let S0 := flip ts (p_shape Ps).
  Let D := flip td (p_shape Pd).
  Let k := (length D - length S0)%nat.
  Let S := repeat 1 k ++ S0.
  Let mask := map2 Z.eqb S D.
  Let union := group_union (p_ranks Ps) (p_ranks Pd).

  Definition scol (u : Z) : Z :=
    match index_in Ps u with
    | None => -1
    | Some c => flat_index ts (select mask S) (select mask (repeat 0 k ++ flip ts c))
    end.

  Definition dcol (u : Z) : Z :=
    match index_in Pd u with
    | None => -1
    | Some c => flat_index td (select mask D) (select mask (flip td c))
    end.

  Hypothesis compatible : bc_compatible S0 D.
  Lemma lenSD : length S = length D.
  Proof. unfold S, k. rewrite app_length, repeat_length. destruct compatible. lia. Qed.

  Lemma compatSD : compat_full S D.
  Proof. apply compat_pad; auto. apply compatible. Qed.

  Lemma src_cart_valid idx : valid_index (p_shape Ps) idx -> valid_index S (repeat 0 k ++ flip ts idx).
  Proof. intros H. apply valid_pad. now apply valid_index_flip. Qed.

  Lemma dst_cart_valid idx : valid_index (p_shape Pd) idx -> valid_index D (flip td idx).
  Proof. intros H. now apply valid_index_flip. Qed.

  Lemma scol_at idx v : worker_at Ps idx v ->
    scol v = flat_index ts (select mask S) (select mask (repeat 0 k ++ flip ts idx)) /\ 0 <= scol v.
  Proof.
    intros H. assert (E : index_in Ps v = Some idx) by now apply index_in_spec.
    unfold scol. rewrite E. split; auto.
    apply flat_index_bound, select_valid, src_cart_valid, H.
  Qed.

  Lemma dcol_at idx v : worker_at Pd idx v ->
    dcol v = flat_index td (select mask S) (select mask (flip td idx)) /\ 0 <= dcol v.
  Proof.
    intros H. assert (E : index_in Pd v = Some idx) by now apply index_in_spec.
    unfold dcol. rewrite E. unfold mask. rewrite select_shapes_eq. split; auto.
    apply flat_index_bound, select_valid, dst_cart_valid, H.
  Qed.

  Lemma dcol_bound v : In v (p_ranks Pd) -> 0 <= dcol v < zprod (select mask S).
  Proof.
    intros H. destruct (worker_at_exists Pd v Pd_ok H) as [i Hi].
    destruct (dcol_at _ _ Hi) as [-> _]. unfold mask. rewrite select_shapes_eq.
    apply flat_index_bound, select_valid, dst_cart_valid, Hi.
  Qed.

  Lemma scol_neg v : ~ In v (p_ranks Ps) -> scol v = -1.
  Proof. intros H. unfold scol. apply index_in_none in H. now rewrite H. Qed.

  Lemma dcol_neg v : ~ In v (p_ranks Pd) -> dcol v = -1.
  Proof. intros H. unfold dcol. apply index_in_none in H. now rewrite H. Qed.

  Lemma scol_inj s s' : In s (p_ranks Ps) -> In s' (p_ranks Ps) -> scol s = scol s' -> s = s'.
  Proof.
    intros H H' E.
    destruct (worker_at_exists Ps s Ps_ok H) as [i Hi].
    destruct (worker_at_exists Ps s' Ps_ok H') as [i' Hi'].
    destruct (scol_at _ _ Hi) as [E1 _]. destruct (scol_at _ _ Hi') as [E2 _].
    rewrite E1, E2 in E.
    apply flat_index_inj in E; [|apply select_valid, src_cart_valid, Hi|apply select_valid, src_cart_valid, Hi'].
    apply (select_inj S D) in E; [|apply compatSD|apply src_cart_valid, Hi|apply src_cart_valid, Hi'].
    apply app_inv_head in E. apply flip_inj in E. subst. eapply worker_at_inj; eauto.
  Qed.

  Lemma source_with_colour c : 0 <= c < zprod (select mask S) ->
    exists s, In s (p_ranks Ps) /\ scol s = c.
  Proof.
    intros Hc.
    assert (HS : nonneg_shape S).
    { unfold S. apply Forall_app. split.
      - apply Forall_forall. intros x Hx. apply repeat_spec in Hx. lia.
      - unfold S0. apply Forall_forall. intros x Hx.
        assert (In x (p_shape Ps)) by (destruct ts; simpl in Hx; auto; now apply in_rev).
        destruct Ps_ok as (_ & _ & Hp & _). unfold pos_shape in Hp. rewrite Forall_forall in Hp.
        apply Hp in H. lia. }
    destruct (flat_index_surj ts (select mask S) c) as (i & Hi & Ei).
    { apply Forall_forall. intros x Hx. apply select_In in Hx. unfold nonneg_shape in HS.
      rewrite Forall_forall in HS. now apply HS. }
    { exact Hc. }
    destruct (unselect_src S D i compatSD Hi) as (a & Ha & Ea).
    destruct (valid_pad_inv k S0 a Ha) as (a' & -> & Ha').
    assert (V : valid_index (p_shape Ps) (flip ts a')).
    { apply (valid_index_flip ts). rewrite flip_flip. exact Ha'. }
    destruct (worker_exists Ps _ Ps_ok V) as [s Hs]. exists s. split; [eapply worker_at_In; eauto|].
    destruct (scol_at _ _ Hs) as [-> _]. rewrite flip_flip. fold mask in Ea. now rewrite Ea.
  Qed.

  Lemma source_of d : In d (p_ranks Pd) -> exists s, In s (p_ranks Ps) /\ scol s = dcol d.
  Proof. intros H. apply source_with_colour, dcol_bound, H. Qed.

  Lemma leaf_of s : In s (p_ranks Ps) -> exists d, In d (p_ranks Pd) /\ dcol d = scol s.
  Proof.
    intros H.
    assert (HD : pos_shape D).
    { unfold D. apply Forall_forall. intros x Hx.
      assert (In x (p_shape Pd)) by (destruct td; simpl in Hx; auto; now apply in_rev).
      destruct Pd_ok as (_ & _ & Hp & _). unfold pos_shape in Hp. rewrite Forall_forall in Hp. auto. }
    destruct (worker_at_exists Ps s Ps_ok H) as [i0 Hi0].
    destruct (scol_at _ _ Hi0) as [E _].
    assert (Hc : 0 <= scol s < zprod (select mask S)).
    { rewrite E. apply flat_index_bound, select_valid, src_cart_valid, Hi0. }
    assert (HM : select mask S = select mask D) by (unfold mask; now rewrite select_shapes_eq).
    destruct (flat_index_surj td (select mask D) (scol s)) as (i & Hi & Ei).
    { apply Forall_forall. intros x Hx. apply select_In in Hx. unfold pos_shape in HD.
      rewrite Forall_forall in HD. specialize (HD x Hx). lia. }
    { now rewrite <- HM. }
    destruct (unselect_dst S D i HD lenSD Hi) as (b & Hb & Eb).
    assert (V : valid_index (p_shape Pd) (flip td b)).
    { apply (valid_index_flip td). rewrite flip_flip. exact Hb. }
    destruct (worker_exists Pd _ Pd_ok V) as [d Hd]. exists d. split; [eapply worker_at_In; eauto|].
    destruct (dcol_at _ _ Hd) as [-> _]. rewrite flip_flip. fold mask in Eb. now rewrite Eb, HM.
  Qed.

  Lemma scol_dcol_iff si s di d :
    (forall i, valid_index (select mask S) i ->
       flat_index ts (select mask S) i = flat_index td (select mask S) i) -> worker_at Ps si s -> worker_at Pd di d ->
    (scol s = dcol d <-> flip ts si = project S0 (flip td di)).
  Proof.
    intros flat_agree Hs Hd. destruct (scol_at _ _ Hs) as [-> _]. destruct (dcol_at _ _ Hd) as [-> _].
    pose proof (src_cart_valid _ (proj1 Hs)) as Vs.
    pose proof (dst_cart_valid _ (proj1 Hd)) as Vd.
    rewrite <- (flat_agree (select mask (flip td di)))
      by (unfold mask; rewrite select_shapes_eq; now apply select_valid).
    assert (E : flat_index ts (select mask S) (select mask (repeat 0 k ++ flip ts si)) =
            flat_index ts (select mask S) (select mask (flip td di)) <->
            repeat 0 k ++ flip ts si = proj_full S (flip td di)).
    { rewrite <- (select_eq_proj S D) by auto using compatSD. fold mask. split; intros E.
      - eapply flat_index_inj; eauto.
        + now apply select_valid.
        + unfold mask. rewrite select_shapes_eq. now apply select_valid.
      - now rewrite E. }
    rewrite E.
    assert (HLd : length (flip td di) = length D).
    { unfold D. rewrite !flip_length. apply valid_index_length, Hd. }
    unfold S, k. rewrite <- HLd. rewrite proj_pad.
    - split; [apply app_inv_head|congruence].
    - rewrite HLd. apply compatible.
  Qed.

  Lemma union_in v : In v union <-> In v (p_ranks Ps) \/ In v (p_ranks Pd).
  Proof. apply group_union_in. Qed.

  Lemma union_nodup : NoDup union.
  Proof. apply group_union_nodup; [apply Ps_ok|apply Pd_ok]. Qed.

  Lemma union_eq : create_partition_union Ps Pd = Ok union.
  Proof. unfold create_partition_union. rewrite same_root, Z.eqb_refl. reflexivity. Qed.

  (** Positions in the union. *)
  Definition upos (v : Z) : Z := match rank_in union v with Some r => r | None => -1 end.

  Lemma bc_src_flat_ok u : bc_src_flat Ps ts S mask (length (p_shape Pd)) u = Ok (scol u).
  Proof.
    unfold bc_src_flat, scol. destruct (index_in Ps u) as [c|] eqn:E; auto.
    change (maybe_rev ts c) with (flip ts c). apply index_in_spec in E as [E _]; auto.
    apply valid_index_length in E.
    assert (c <> []) by (destruct Ps_ok as (_ & Hne & _); destruct c, (p_shape Ps); auto; discriminate).
    rewrite pad_left_ok by now apply flip_nonempty. simpl.
    unfold k, D, S0. rewrite !flip_length, E. reflexivity.
  Qed.

  Lemma bc_dest_flat_ok u : bc_dest_flat Pd td D mask u = Ok (dcol u).
  Proof. unfold bc_dest_flat, dcol. destruct (index_in Pd u); auto. Qed.

  Definition root_of (c r : Z) : Prop := In r (p_ranks Ps) /\ scol r = c.

  Lemma root_of_unique c r u : root_of c r -> 0 <= c -> scol u = c -> u = r.
  Proof.
    intros [Hr Hc] H0 Eu. destruct (in_dec Z.eq_dec u (p_ranks Ps)) as [Hin|Hout].
    - apply scol_inj; auto. congruence.
    - rewrite scol_neg in Eu by auto. lia.
  Qed.

  Lemma scol_nonneg v : In v (p_ranks Ps) -> 0 <= scol v.
  Proof. intros H. destruct (worker_at_exists Ps v Ps_ok H) as [i Hi]. apply (scol_at _ _ Hi). Qed.

  Section Groups.
    (** Any ordering of the union's workers. *)
    Variable U : list Z.
    Hypothesis U_nodup : NoDup U.
    Hypothesis U_in : forall v, In v U <-> In v (p_ranks Ps) \/ In v (p_ranks Pd).

    Definition grp (c : Z) : list Z :=
      match build_cross_partition_groups true c (map scol U) (map dcol U) with
      | Ok (Some g) => g
      | _ => []
      end.

    Lemma grp_spec c r : root_of c r -> 0 <= c ->
      build_cross_partition_groups true c (map scol U) (map dcol U) = Ok (Some (grp c)) /\
      incl_ranks U (grp c) = colour_group U dcol r c /\
      (exists r0 g', grp c = r0 :: g' /\ 0 <= r0 /\ nth_error U (Z.to_nat r0) = Some r) /\
      (forall k, In k (grp c) -> 0 <= k < Z.of_nat (length U)).
    Proof.
      intros Hr H0.
      destruct (build_groups_colours U scol dcol U_nodup c r) as (g & G1 & G2 & G3 & G4).
      - apply U_in. left. apply Hr.
      - apply Hr.
      - intros u _ Hu. eapply root_of_unique; eauto.
      - unfold grp. rewrite G1. auto.
    Qed.

    Definition send_of (v : Z) : option (list Z) :=
      if is_active (p_ranks Ps) v then Some (grp (scol v)) else None.
    Definition recv_of (v : Z) : option (list Z) :=
      if is_active (p_ranks Pd) v then Some (grp (dcol v)) else None.

    Lemma build_send v :
      build_cross_partition_groups (is_active (p_ranks Ps) v) (scol v) (map scol U) (map dcol U)
      = Ok (send_of v).
    Proof.
      unfold send_of. destruct (is_active (p_ranks Ps) v) eqn:E; auto. apply is_active_spec in E.
      apply (grp_spec (scol v) v); [split; auto|now apply scol_nonneg].
    Qed.

    Lemma build_recv v :
      build_cross_partition_groups (is_active (p_ranks Pd) v) (dcol v) (map scol U) (map dcol U)
      = Ok (recv_of v).
    Proof.
      unfold recv_of. destruct (is_active (p_ranks Pd) v) eqn:E; auto. apply is_active_spec in E.
      destruct (source_of v E) as (r & Hr & Er).
      apply (grp_spec (dcol v) r); [split; auto|]. now apply dcol_bound in E.
    Qed.

    Lemma send_of_active v : In v (p_ranks Ps) ->
      send_of v = Some (grp (scol v)) /\
      option_map (incl_ranks U) (send_of v) = Some (colour_group U dcol v (scol v)).
    Proof.
      intros H. unfold send_of. pose proof H as H'. apply is_active_spec in H'. rewrite H'. split; auto.
      simpl. f_equal. apply (grp_spec (scol v) v); [split; auto|now apply scol_nonneg].
    Qed.

    Lemma send_of_inactive v : ~ In v (p_ranks Ps) -> send_of v = None.
    Proof. intros H. unfold send_of. apply is_active_false in H. now rewrite H. Qed.

    Lemma recv_of_active v : In v (p_ranks Pd) ->
      recv_of v = Some (grp (dcol v)) /\
      exists r, root_of (dcol v) r /\
        option_map (incl_ranks U) (recv_of v) = Some (colour_group U dcol r (dcol v)).
    Proof.
      intros H. unfold recv_of. pose proof H as H'. apply is_active_spec in H'. rewrite H'. split; auto.
      destruct (source_of v H) as (r & Hr & Er). exists r. split; [split; auto|].
      simpl. f_equal. apply (grp_spec (dcol v) r); [split; auto|]. now apply dcol_bound in H.
    Qed.

    Lemma recv_of_inactive v : ~ In v (p_ranks Pd) -> recv_of v = None.
    Proof. intros H. unfold recv_of. apply is_active_false in H. now rewrite H. Qed.

    Lemma grp_root_inj c c' r r' : root_of c r -> root_of c' r' -> 0 <= c -> 0 <= c' ->
      hd 0 (grp c) = hd 0 (grp c') -> c = c'.
    Proof.
      intros Hr Hr' H0 H0' E.
      destruct (grp_spec c r Hr H0) as (_ & _ & (a & g & Ea & Ha & Na) & _).
      destruct (grp_spec c' r' Hr' H0') as (_ & _ & (b & g' & Eb & Hb & Nb) & _).
      rewrite Ea, Eb in E. simpl in E. subst b. rewrite Na in Nb. inv Nb.
      destruct Hr, Hr'. congruence.
    Qed.

    Lemma calls_ok v : In v U -> exists calls calls',
      create_send_recv_calls (send_of v) (recv_of v) = Ok calls /\
      create_send_recv_calls (recv_of v) (send_of v) = Ok calls'.
    Proof.
      intros Hv. apply U_in in Hv.
      assert (HS : send_of v = None \/ exists a g, send_of v = Some (a :: g)).
      { destruct (in_dec Z.eq_dec v (p_ranks Ps)) as [I|I]; [right|left; now apply send_of_inactive].
        destruct (send_of_active v I) as [-> _].
        destruct (grp_spec (scol v) v) as (_ & _ & (r0 & g & -> & _) & _); eauto.
        - split; auto.
        - now apply scol_nonneg. }
      assert (HR : recv_of v = None \/ exists a g, recv_of v = Some (a :: g)).
      { destruct (in_dec Z.eq_dec v (p_ranks Pd)) as [I|I]; [right|left; now apply recv_of_inactive].
        destruct (recv_of_active v I) as [-> (r & Hr & _)].
        destruct (grp_spec (dcol v) r) as (_ & _ & (r0 & g & -> & _) & _); eauto.
        now apply dcol_bound in I. }
      assert (HN : send_of v <> None \/ recv_of v <> None).
      { destruct Hv as [I|I].
        - left. destruct (send_of_active v I) as [-> _]. discriminate.
        - right. destruct (recv_of_active v I) as [-> _]. discriminate. }
      destruct HS as [E1|(a & g & E1)], HR as [E2|(b & h & E2)]; [destruct HN; congruence| | |];
        rewrite E1, E2; unfold create_send_recv_calls.
      { exists [b :: h], [b :: h]; split; reflexivity. }
      { exists [a :: g], [a :: g]; split; reflexivity. }
      destruct (negb (zlist_eqb (a :: g) (b :: h))), (negb (zlist_eqb (b :: h) (a :: g)));
        destruct (a <? b), (b <? a); eauto.
    Qed.
  End Groups.

  (** The whole broadcast routine. *)
  Lemma broadcast_run v : In v union -> exists calls,
    create_send_recv_calls (send_of union v) (recv_of union v) = Ok calls /\
    create_broadcast_partition_to Ps Pd ts td v =
      Ok (mkcross (option_map (incl_ranks union) (send_of union v))
                  (option_map (incl_ranks union) (recv_of union v)) calls).
  Proof.
    intros Hv. unfold create_broadcast_partition_to.
    assert (Ha : is_active (p_ranks Ps) v || is_active (p_ranks Pd) v = true).
    { apply union_in in Hv as [H|H]; apply is_active_spec in H; rewrite H; auto using orb_true_r. }
    rewrite Ha. cbn [negb]. rewrite union_eq. cbn [rbind].
    rewrite (broadcast_data_first union Ps _ (p_shape Ps)); auto;
      [|intros; apply union_in; auto].
    cbn [rbind].
    rewrite (broadcast_data_first union Pd _ (p_shape Pd)); auto;
      [|intros; apply union_in; auto].
    cbn [rbind].
    destruct compatible as [HLen HC]. unfold S0, D in HLen. rewrite !flip_length in HLen.
    replace (length (p_shape Pd) <? length (p_shape Ps))%nat with false
      by (symmetry; apply Nat.ltb_ge; lia).
    change (maybe_rev ts (p_shape Ps)) with S0. change (maybe_rev td (p_shape Pd)) with D.
    rewrite pad_left_ok by (unfold S0; apply flip_nonempty, Ps_ok). cbn [rbind].
    replace (repeat 1 (length (p_shape Pd) - length S0) ++ S0) with S
      by (unfold S, k, D; now rewrite flip_length).
    assert (HE : existsb (fun sd => negb (fst sd =? snd sd) && negb (fst sd =? 1)) (combine S D) = false)
      by (apply compat_full_existsb; [apply lenSD|apply compatSD]).
    rewrite HE. fold mask.
    rewrite bc_src_flat_ok. cbn [rbind]. unfold allgather.
    rewrite (rmap_ok _ scol) by (intros; apply bc_src_flat_ok). cbn [rbind].
    rewrite bc_dest_flat_ok. cbn [rbind].
    rewrite (rmap_ok _ dcol) by (intros; apply bc_dest_flat_ok). cbn [rbind].
    rewrite build_send by (auto using union_nodup, union_in). cbn [rbind].
    rewrite build_recv by (auto using union_nodup, union_in). cbn [rbind].
    destruct (calls_ok union union_nodup union_in v Hv) as (calls & _ & HC1 & _).
    exists calls. rewrite HC1. auto.
  Qed.

  (** The reduction from Pd to Ps computes the same colours, on a union in
      which Pd comes first. *)
  Let union' := group_union (p_ranks Pd) (p_ranks Ps).

  Lemma union'_in v : In v union' <-> In v (p_ranks Ps) \/ In v (p_ranks Pd).
  Proof. unfold union'. rewrite group_union_in. tauto. Qed.

  Lemma union'_nodup : NoDup union'.
  Proof. apply group_union_nodup; [apply Pd_ok|apply Ps_ok]. Qed.

  Lemma mask_sym : map2 Z.eqb D S = mask.
  Proof.
    unfold mask. generalize S D. intros l l'. revert l'.
    induction l as [|x l IH]; intros [|y l']; simpl; auto. now rewrite IH, Z.eqb_sym.
  Qed.

  Lemma rd_src_flat_ok u : rd_src_flat Pd td D mask u = Ok (dcol u).
  Proof.
    unfold rd_src_flat, dcol, flat_index. destruct (index_in Pd u); auto. now destruct td.
  Qed.

  Lemma rd_dest_flat_ok u : rd_dest_flat Ps ts S mask (length (p_shape Pd)) u = Ok (scol u).
  Proof.
    unfold rd_dest_flat, scol. destruct (index_in Ps u) as [c|] eqn:E; auto.
    apply index_in_spec in E as [E _]; auto. apply valid_index_length in E.
    assert (Hc : c <> []) by (destruct Ps_ok as (_ & Hne & _); destruct c, (p_shape Ps); auto; discriminate).
    assert (HK : (length (p_shape Pd) - length c = k)%nat) by (unfold k, D, S0; now rewrite !flip_length, E).
    unfold flat_index, flip. destruct ts.
    - unfold pad_right. rewrite HK, rev_app_distr, rev_repeat'. reflexivity.
    - rewrite pad_left_ok, HK by auto. reflexivity.
  Qed.

  Lemma existsb_sym (a b : list Z) :
    existsb (fun sd => negb (fst sd =? snd sd) && negb (snd sd =? 1)) (combine a b) =
    existsb (fun sd => negb (fst sd =? snd sd) && negb (fst sd =? 1)) (combine b a).
  Proof.
    revert b. induction a as [|x a IH]; intros [|y b]; simpl; auto. now rewrite IH, (Z.eqb_sym x y).
  Qed.

  Lemma reduction_run v : In v union' -> exists calls,
    create_send_recv_calls (recv_of union' v) (send_of union' v) = Ok calls /\
    create_reduction_partition_to Pd Ps td ts v =
      Ok (mkcross (option_map (incl_ranks union') (recv_of union' v))
                  (option_map (incl_ranks union') (send_of union' v)) calls).
  Proof.
    intros Hv. unfold create_reduction_partition_to.
    assert (Ha : is_active (p_ranks Pd) v || is_active (p_ranks Ps) v = true).
    { apply union'_in in Hv as [H|H]; apply is_active_spec in H; rewrite H; auto using orb_true_r. }
    rewrite Ha. cbn [negb].
    assert (HU : create_partition_union Pd Ps = Ok union')
      by (unfold create_partition_union; now rewrite same_root, Z.eqb_refl).
    rewrite HU. cbn [rbind].
    rewrite (broadcast_data_first union' Pd _ (p_shape Pd)); auto;
      [|intros; apply union'_in; auto].
    cbn [rbind].
    rewrite (broadcast_data_first union' Ps _ (p_shape Ps)); auto;
      [|intros; apply union'_in; auto].
    cbn [rbind].
    destruct compatible as [HLen HC]. unfold S0, D in HLen. rewrite !flip_length in HLen.
    replace (length (p_shape Pd) <? length (p_shape Ps))%nat with false
      by (symmetry; apply Nat.ltb_ge; lia).
    change (maybe_rev ts (p_shape Ps)) with S0. change (maybe_rev td (p_shape Pd)) with D.
    rewrite pad_left_ok by (unfold S0; apply flip_nonempty, Ps_ok). cbn [rbind].
    replace (repeat 1 (length (p_shape Pd) - length S0) ++ S0) with S
      by (unfold S, k, D; now rewrite flip_length).
    rewrite existsb_sym.
    assert (HE : existsb (fun sd => negb (fst sd =? snd sd) && negb (fst sd =? 1)) (combine S D) = false)
      by (apply compat_full_existsb; [apply lenSD|apply compatSD]).
    rewrite HE, mask_sym.
    rewrite rd_src_flat_ok. cbn [rbind]. unfold allgather.
    rewrite (rmap_ok _ dcol) by (intros; apply rd_src_flat_ok). cbn [rbind].
    rewrite rd_dest_flat_ok. cbn [rbind].
    rewrite (rmap_ok _ scol) by (intros; apply rd_dest_flat_ok). cbn [rbind].
    rewrite build_recv by (auto using union'_nodup, union'_in). cbn [rbind].
    rewrite build_send by (auto using union'_nodup, union'_in). cbn [rbind].
    destruct (calls_ok union' union'_nodup union'_in v Hv) as (_ & calls & _ & HC1).
    exists calls. rewrite HC1. auto.
  Qed.

End Broadcast.

(** Rejection: dimensions or extents do not match. *)
Lemma broadcast_rejects Ps Pd ts td v : part_ok Ps -> part_ok Pd -> p_root Ps = p_root Pd ->
  In v (p_ranks Ps) \/ In v (p_ranks Pd) ->
  ~ bc_compatible (flip ts (p_shape Ps)) (flip td (p_shape Pd)) ->
  create_broadcast_partition_to Ps Pd ts td v =
    Raise (if (length (p_shape Pd) <? length (p_shape Ps))%nat then ErrDim else ErrMatch).
Proof.
  intros HPs HPd Hroot Hv Hn. unfold create_broadcast_partition_to.
  assert (Ha : is_active (p_ranks Ps) v || is_active (p_ranks Pd) v = true).
  { destruct Hv as [H|H]; apply is_active_spec in H; rewrite H; auto using orb_true_r. }
  rewrite Ha. cbn [negb].
  unfold create_partition_union. rewrite Hroot, Z.eqb_refl. cbn [rbind].
  rewrite (broadcast_data_first _ Ps _ (p_shape Ps)); auto; [|intros; apply group_union_in; auto].
  cbn [rbind].
  rewrite (broadcast_data_first _ Pd _ (p_shape Pd)); auto; [|intros; apply group_union_in; auto].
  cbn [rbind].
  destruct (Nat.ltb_spec (length (p_shape Pd)) (length (p_shape Ps))) as [L|L]; auto.
  change (maybe_rev ts (p_shape Ps)) with (flip ts (p_shape Ps)).
  change (maybe_rev td (p_shape Pd)) with (flip td (p_shape Pd)).
  rewrite pad_left_ok by (apply flip_nonempty, HPs). cbn [rbind].
  replace (length (p_shape Pd)) with (length (flip td (p_shape Pd))) at 1 by apply flip_length.
  assert (HL : (length (flip ts (p_shape Ps)) <= length (flip td (p_shape Pd)))%nat)
    by (rewrite !flip_length; lia).
  destruct (existsb _ _) eqn:E; auto. exfalso. apply Hn. apply compat_pad; auto.
  apply compat_full_existsb; auto. rewrite app_length, repeat_length. lia.
Qed.

Lemma reduction_rejects Ps Pd ts td v : part_ok Ps -> part_ok Pd -> p_root Ps = p_root Pd ->
  In v (p_ranks Ps) \/ In v (p_ranks Pd) ->
  ~ bc_compatible (flip td (p_shape Pd)) (flip ts (p_shape Ps)) ->
  create_reduction_partition_to Ps Pd ts td v =
    Raise (if (length (p_shape Ps) <? length (p_shape Pd))%nat then ErrDim else ErrMatch).
Proof.
  intros HPs HPd Hroot Hv Hn. unfold create_reduction_partition_to.
  assert (Ha : is_active (p_ranks Ps) v || is_active (p_ranks Pd) v = true).
  { destruct Hv as [H|H]; apply is_active_spec in H; rewrite H; auto using orb_true_r. }
  rewrite Ha. cbn [negb].
  unfold create_partition_union. rewrite Hroot, Z.eqb_refl. cbn [rbind].
  rewrite (broadcast_data_first _ Ps _ (p_shape Ps)); auto; [|intros; apply group_union_in; auto].
  cbn [rbind].
  rewrite (broadcast_data_first _ Pd _ (p_shape Pd)); auto; [|intros; apply group_union_in; auto].
  cbn [rbind].
  destruct (Nat.ltb_spec (length (p_shape Ps)) (length (p_shape Pd))) as [L|L]; auto.
  change (maybe_rev ts (p_shape Ps)) with (flip ts (p_shape Ps)).
  change (maybe_rev td (p_shape Pd)) with (flip td (p_shape Pd)).
  rewrite pad_left_ok by (apply flip_nonempty, HPd). cbn [rbind].
  replace (length (p_shape Ps)) with (length (flip ts (p_shape Ps))) at 1 by apply flip_length.
  assert (HL : (length (flip td (p_shape Pd)) <= length (flip ts (p_shape Ps)))%nat)
    by (rewrite !flip_length; lia).
  rewrite existsb_sym.
  destruct (existsb _ _) eqn:E; auto. exfalso. apply Hn. apply compat_pad; auto.
  apply compat_full_existsb; auto. rewrite app_length, repeat_length. lia.
Qed.

(** * Order of the two numberings when at most one extent is not one *)

Lemma col_row_trivial s i : Forall (fun n => n = 1) s -> valid_index s i ->
  row_major s i = 0 /\ col_major s i = 0 /\ zprod s = 1.
Proof.
  intros Hs. revert i. induction Hs as [|n s Hn Hs IH]; intros i Hi.
  - apply valid_index_nil in Hi. now subst.
  - apply valid_index_cons_inv in Hi as (x & t & -> & Hx & Ht).
    destruct (IH t Ht) as (-> & -> & ->) || (destruct (IH t Ht) as (E1 & E2 & E3); simpl; rewrite E1, E2, E3).
    all: subst n; simpl; repeat split; try lia.
Qed.

Lemma row_col_agree s i : at_most_one_nontrivial s -> valid_index s i -> row_major s i = col_major s i.
Proof.
  intros H Hi. revert H. induction Hi as [|n x s t Hx Ht IH]; intros H; auto.
  cbn [row_major col_major].
  assert (Hs : at_most_one_nontrivial s).
  { intros j1 j2 H1 H2. assert (S j1 = S j2) by (apply H; auto). lia. }
  destruct (Z.eq_dec n 1) as [->|Hn].
  - rewrite <- IH by auto. assert (x = 0) by lia. subst. lia.
  - assert (HF : Forall (fun n => n = 1) s).
    { apply Forall_forall. intros y Hy. destruct (In_nth s y 1 Hy) as (j & Hj & E).
      destruct (Z.eq_dec y 1); auto. exfalso.
      assert (0%nat = S j) by (apply H; simpl; auto; congruence). lia. }
    destruct (col_row_trivial s t HF Ht) as (-> & -> & ->). lia.
Qed.

(** * neighbours (C13) *)

Lemma cart_rank_ok s idx : valid_index s idx -> cart_rank s idx = Ok (row_major s idx).
Proof.
  intros H. unfold cart_rank. rewrite cartesian_index_c_row_major by now apply valid_index_length.
  replace (forallb _ _) with true; auto. symmetry.
  induction H as [|n i s t Hi Ht IH]; simpl; auto. rewrite IH, andb_true_r.
  apply andb_true_iff. split; [apply Z.leb_le|apply Z.ltb_lt]; lia.
Qed.

Lemma valid_index_upd s idx j x : valid_index s idx -> 0 <= x < nth j s 0 ->
  valid_index s (upd j x idx).
Proof.
  intros H Hx. apply valid_index_nth in H as [HL H]. apply valid_index_nth.
  rewrite upd_length. split; auto. intros m Hm.
  assert (Hj : (j < length s)%nat).
  { destruct (Nat.lt_ge_cases j (length s)); auto. rewrite nth_overflow in Hx by auto. lia. }
  destruct (Nat.eq_dec j m) as [->|N].
  - rewrite upd_nth_eq by lia. auto.
  - rewrite upd_nth_neq by auto. auto.
Qed.

Lemma neighbor_ranks_spec P idx v : part_ok P -> worker_at P idx v ->
  neighbor_ranks P true (row_major (p_shape P) idx) =
  Ok (map (fun i =>
        (if nth i idx 0 =? 0 then None
         else Some (row_major (p_shape P) (upd i (nth i idx 0 - 1) idx)),
         if nth i idx 0 =? nth i (p_shape P) 0 - 1 then None
         else Some (row_major (p_shape P) (upd i (nth i idx 0 + 1) idx))))
      (seq 0 (length (p_shape P)))).
Proof.
  intros HP [Hv _]. unfold neighbor_ranks. cbn [negb].
  rewrite cart_coords_row_major by (auto; apply HP).
  apply rmap_ok. intros i Hi. apply in_seq in Hi.
  pose proof (valid_index_length _ _ Hv) as HL.
  rewrite !upd_nth_eq by lia.
  pose proof Hv as Hv'. apply valid_index_nth in Hv' as [_ Hb]. specialize (Hb i ltac:(lia)).
  destruct (Z.eqb_spec (nth i idx 0) 0) as [E0|E0].
  - replace (-1 =? nth i idx 0 - 1) with true by (symmetry; apply Z.eqb_eq; lia). cbn [rbind].
    destruct (Z.eqb_spec (nth i idx 0) (nth i (p_shape P) 0 - 1)) as [E1|E1].
    + replace (nth i (p_shape P) 0 =? nth i idx 0 + 1) with true by (symmetry; apply Z.eqb_eq; lia).
      reflexivity.
    + replace (nth i (p_shape P) 0 =? nth i idx 0 + 1) with false by (symmetry; apply Z.eqb_neq; lia).
      rewrite cart_rank_ok by (apply valid_index_upd; auto; lia). reflexivity.
  - replace (-1 =? nth i idx 0 - 1) with false by (symmetry; apply Z.eqb_neq; lia).
    rewrite cart_rank_ok by (apply valid_index_upd; auto; lia). cbn [rbind].
    destruct (Z.eqb_spec (nth i idx 0) (nth i (p_shape P) 0 - 1)) as [E1|E1].
    + replace (nth i (p_shape P) 0 =? nth i idx 0 + 1) with true by (symmetry; apply Z.eqb_eq; lia).
      reflexivity.
    + replace (nth i (p_shape P) 0 =? nth i idx 0 + 1) with false by (symmetry; apply Z.eqb_neq; lia).
      rewrite cart_rank_ok by (apply valid_index_upd; auto; lia). reflexivity.
Qed.

(** * Mixed transposes (C08) *)

Lemma amo_cons_one s : at_most_one_nontrivial (1 :: s) <-> at_most_one_nontrivial s.
Proof.
  split; intros H j1 j2 H1 H2.
  - assert (S j1 = S j2) by (apply H; auto). lia.
  - destruct j1, j2; simpl in *; try lia. f_equal. now apply H.
Qed.

Lemma amo_cons s n : n <> 1 -> at_most_one_nontrivial (n :: s) <-> Forall (fun m => m = 1) s.
Proof.
  intros Hn. split.
  - intros H. apply Forall_forall. intros y Hy. destruct (In_nth s y 1 Hy) as (j & Hj & E).
    destruct (Z.eq_dec y 1); auto. exfalso.
    assert (0%nat = S j) by (apply H; simpl; auto; congruence). lia.
  - intros H j1 j2 H1 H2. rewrite Forall_forall in H.
    assert (G : forall j, nth (S j) (n :: s) 1 <> 1 -> False).
    { intros j Hj. simpl in Hj. destruct (Nat.lt_ge_cases j (length s)).
      - apply Hj, H, nth_In; auto.
      - apply Hj. now apply nth_overflow. }
    destruct j1, j2; auto; exfalso; eapply G; eauto.
Qed.

Lemma amo_perm_app a b : at_most_one_nontrivial (a ++ b) <-> at_most_one_nontrivial (b ++ a).
Proof.
  assert (G : forall a b, at_most_one_nontrivial (a ++ b) -> at_most_one_nontrivial (b ++ a)).
  { clear. intros a b H.
    assert (E : forall j, nth j (b ++ a) 1 <> 1 -> exists i, nth i (a ++ b) 1 = nth j (b ++ a) 1 /\
       ((j < length b)%nat /\ i = (j + length a)%nat \/ (length b <= j < length b + length a)%nat /\ i = (j - length b)%nat)).
    { intros j Hj. destruct (Nat.lt_ge_cases j (length b)) as [L|L].
      - exists (j + length a)%nat. split; [|auto]. rewrite (app_nth1 b a) by auto.
        rewrite app_nth2 by lia. f_equal. lia.
      - assert (L2 : (j < length b + length a)%nat).
        { destruct (Nat.lt_ge_cases j (length b + length a)); auto.
          rewrite nth_overflow in Hj by (rewrite app_length; lia). congruence. }
        exists (j - length b)%nat. split; [|auto]. rewrite (app_nth2 b a) by auto.
        rewrite app_nth1 by lia. reflexivity. }
    intros j1 j2 H1 H2. destruct (E j1 H1) as (i1 & E1 & C1). destruct (E j2 H2) as (i2 & E2 & C2).
    assert (i1 = i2) by (apply H; congruence). lia. }
  split; apply G.
Qed.

Lemma amo_rev s : at_most_one_nontrivial (rev s) <-> at_most_one_nontrivial s.
Proof.
  induction s as [|n s IH]; simpl; [tauto|]. rewrite amo_perm_app. simpl.
  destruct (Z.eq_dec n 1) as [->|N].
  - now rewrite !amo_cons_one.
  - rewrite !amo_cons by auto. split; intros H.
    + apply Forall_rev in H. now rewrite rev_involutive in H.
    + now apply Forall_rev.
Qed.

Lemma amo_flip t s : at_most_one_nontrivial (flip t s) <-> at_most_one_nontrivial s.
Proof. destruct t; simpl; [apply amo_rev|tauto]. Qed.

Lemma amo_pad k s : at_most_one_nontrivial (repeat 1 k ++ s) <-> at_most_one_nontrivial s.
Proof. induction k; simpl; [tauto|]. now rewrite amo_cons_one. Qed.

Lemma ones_select S D : compat_full S D ->
  (Forall (fun m => m = 1) (select (map2 Z.eqb S D) S) <-> Forall (fun m => m = 1) S).
Proof.
  induction 1 as [|s d S D Hsd H IH]; simpl; [tauto|].
  destruct (Z.eqb_spec s d) as [->|N].
  - rewrite !Forall_cons_iff. tauto.
  - rewrite !Forall_cons_iff, IH. tauto.
Qed.

Lemma amo_select S D : compat_full S D ->
  (at_most_one_nontrivial (select (map2 Z.eqb S D) S) <-> at_most_one_nontrivial S).
Proof.
  induction 1 as [|s d S D Hsd H IH]; simpl; [tauto|].
  destruct (Z.eq_dec s 1) as [->|N].
  - destruct (1 =? d); rewrite ?amo_cons_one; tauto.
  - assert (s = d) by tauto. subst. rewrite Z.eqb_refl, !amo_cons by auto. now apply ones_select.
Qed.

Lemma row_col_agree_inv s : pos_shape s ->
  (forall i, valid_index s i -> row_major s i = col_major s i) -> at_most_one_nontrivial s.
Proof.
  assert (Z0 : forall s, pos_shape s -> exists i, valid_index s i /\ row_major s i = 0 /\ col_major s i = 0).
  { clear. induction 1 as [|n s Hn Hs (i & IH & R & C)].
    - exists []. repeat split. constructor.
    - exists (0 :: i). split; [apply valid_index_cons; split; auto; lia|].
      cbn [row_major col_major]. rewrite R, C. split; lia. }
  induction 1 as [|n s Hn Hs IH]; intros H.
  - intros j1 j2 H1. destruct j1; simpl in H1; congruence.
  - destruct (Z.eq_dec n 1) as [->|N].
    + apply amo_cons_one, IH. intros i Hi. specialize (H (0 :: i)).
      cbn [row_major col_major] in H.
      assert (V : valid_index (1 :: s) (0 :: i)) by (apply valid_index_cons; split; auto; lia).
      specialize (H V). lia.
    + apply amo_cons; auto. destruct (Z0 s Hs) as (i & Hi & R & C).
      specialize (H (1 :: i)). cbn [row_major col_major] in H.
      assert (V : valid_index (n :: s) (1 :: i)) by (apply valid_index_cons; split; auto; lia).
      specialize (H V). rewrite R, C in H. assert (E : zprod s = 1) by lia.
      clear - Hs E. induction Hs as [|m s Hm Hs IH]; constructor.
      * change (m * zprod s = 1) in E. pose proof (zprod_pos s Hs). nia.
      * apply IH. change (m * zprod s = 1) in E. pose proof (zprod_pos s Hs). nia.
Qed.

(** * All-reduction groups (C11) *)

Lemma filter_flat_map {A B} (p : B -> bool) (f : A -> list B) l :
  filter p (flat_map f l) = flat_map (fun a => filter p (f a)) l.
Proof. induction l; simpl; auto. rewrite filter_app. congruence. Qed.

Lemma filter_map_cons (p : list Z -> bool) i l :
  filter p (map (cons i) l) = map (cons i) (filter (fun t => p (i :: t)) l).
Proof. induction l; simpl; auto. destruct (p (i :: a)); simpl; congruence. Qed.

Lemma flat_map_length_const {A B} (f : A -> list B) l n :
  (forall a, In a l -> length (f a) = n) -> length (flat_map f l) = (length l * n)%nat.
Proof.
  induction l; simpl; intros H; auto. rewrite app_length, H, IHl; auto.
Qed.

Lemma filtered_length s flt : nonneg_shape s ->
  Forall2 (fun n f => match f with Some v => 0 <= v < n | None => True end) s flt ->
  Z.of_nat (length (filter (fun idx => filter_matches idx flt) (range_index s))) =
  zprod (map2 (fun n f => match f with Some _ => 1 | None => n end) s flt).
Proof.
  intros Hs H. revert Hs. induction H as [|n f s flt Hf H IH]; intros Hs; auto.
  inv Hs. specialize (IH H3). cbn [range_index map2].
  rewrite filter_flat_map.
  set (c := filter (fun idx => filter_matches idx flt) (range_index s)) in *.
  destruct f as [v|].
  - assert (E : forall l, NoDup l -> length (flat_map (fun a => filter (fun idx => filter_matches idx (Some v :: flt))
        (map (cons a) (range_index s))) l) = if in_dec Z.eq_dec v l then length c else 0%nat).
    { induction l as [|a l IHl]; intros HN; auto. inv HN. simpl flat_map.
      rewrite app_length, IHl by auto. rewrite filter_map_cons, map_length. simpl filter_matches.
      destruct (Z.eqb_spec a v) as [->|Na]; simpl.
      - fold c. destruct (Z.eq_dec v v); [|congruence]. destruct (in_dec Z.eq_dec v l); [contradiction|lia].
      - assert (E0 : length (filter (fun _ => false) (range_index s)) = 0%nat)
          by (generalize (range_index s); induction l0; auto).
        rewrite E0. destruct (Z.eq_dec a v); [congruence|].
        destruct (in_dec Z.eq_dec v l); lia. }
    rewrite E by apply zrange_nodup.
    destruct (in_dec Z.eq_dec v (zrange n)) as [I|I].
    + rewrite IH. change (zprod (1 :: ?x)) with (1 * zprod x). simpl. destruct (zprod _); reflexivity.
    + exfalso. apply I. now apply in_zrange.
  - rewrite (flat_map_length_const _ _ (length c)).
    + rewrite zrange_length, Nat2Z.inj_mul, IH. change (zprod (n :: ?x)) with (n * zprod x).
      simpl. f_equal. lia.
    + intros a _. rewrite filter_map_cons, map_length. reflexivity.
Qed.

Lemma reduced_shape_length axes s : length (reduced_shape axes s) = length s.
Proof. unfold reduced_shape. now rewrite map_length, seq_length. Qed.

Lemma reduced_shape_model axes s :
  map (fun k => if in_dims (Z.of_nat k) axes then nth k s 0 else 1) (seq 0 (length s)) =
  reduced_shape axes s.
Proof.
  unfold reduced_shape. apply map_ext. intros k.
  destruct (in_dec Z.eq_dec (Z.of_nat k) axes) as [I|I].
  - apply in_dims_spec in I. now rewrite I.
  - destruct (in_dims (Z.of_nat k) axes) eqn:E; auto. apply in_dims_spec in E. contradiction.
Qed.

Lemma reduced_shape_nth axes s k : (k < length s)%nat ->
  nth k (reduced_shape axes s) 0 = if in_dec Z.eq_dec (Z.of_nat k) axes then nth k s 0 else 1.
Proof.
  intros Hk. unfold reduced_shape.
  assert (E : nth_error (map (fun k0 => if in_dec Z.eq_dec (Z.of_nat k0) axes then nth k0 s 0 else 1)
                  (seq 0 (length s))) k =
     Some (if in_dec Z.eq_dec (Z.of_nat k) axes then nth k s 0 else 1)).
  { erewrite map_nth_error; [|now apply nth_error_seq]. reflexivity. }
  now apply nth_error_nth with (d := 0) in E.
Qed.

Lemma allreduction_length s idx axes : nonneg_shape s -> valid_index s idx ->
  Z.of_nat (length (filtered_range_index s (assemble_index_filter idx axes true))) =
  zprod (reduced_shape axes s).
Proof.
  intros Hs Hv. unfold filtered_range_index.
  pose proof (valid_index_length _ _ Hv) as HL.
  rewrite filtered_length; auto.
  - f_equal. apply list_eq_nth with (d := 0).
    + rewrite map2_length, reduced_shape_length; auto. rewrite assemble_index_filter_length; lia.
    + intros k Hk. rewrite map2_length in Hk by (rewrite assemble_index_filter_length; lia).
      rewrite map2_nth with (da := 0) (db := None); [|lia|rewrite assemble_index_filter_length; lia].
      rewrite reduced_shape_nth by lia.
      pose proof (assemble_index_filter_nth idx axes true k ltac:(lia)) as E.
      apply nth_error_nth with (d := None) in E. rewrite E. simpl.
      destruct (in_dec Z.eq_dec (Z.of_nat k) axes) as [I|I].
      * apply in_dims_spec in I. now rewrite I.
      * destruct (in_dims (Z.of_nat k) axes) eqn:E2; auto. apply in_dims_spec in E2. contradiction.
  - apply Forall2_nth with (da := 0) (db := None). split.
    + rewrite assemble_index_filter_length. lia.
    + intros k Hk. pose proof (assemble_index_filter_nth idx axes true k ltac:(lia)) as E.
      apply nth_error_nth with (d := None) in E. rewrite E.
      destruct (xorb true (in_dims (Z.of_nat k) axes)); auto.
      apply valid_index_nth in Hv as [_ Hb]. apply Hb. lia.
Qed.

Lemma assemble_filter_agree axes i j : length i = length j -> agree_off axes i j ->
  assemble_index_filter i axes true = assemble_index_filter j axes true.
Proof.
  intros HL H. unfold assemble_index_filter. rewrite HL. apply map_ext_in. intros k Hk.
  apply in_seq in Hk. destruct (in_dims (Z.of_nat k) axes) eqn:E; simpl; auto.
  f_equal. apply H; [lia|]. intros C. apply in_dims_spec in C. congruence.
Qed.

Definition ar_members (P : part) (axes idx : list Z) : list Z :=
  map (fun i => nth (Z.to_nat (row_major (p_shape P) i)) (p_ranks P) 0)
      (filtered_range_index (p_shape P) (assemble_index_filter idx axes true)).

Lemma pos_nonneg s : pos_shape s -> nonneg_shape s.
Proof. intros H. eapply Forall_impl; [|exact H]. simpl; intros; lia. Qed.

Lemma allreduction_run P axes idx v : part_ok P -> worker_at P idx v ->
  Forall (fun a => a < Z.of_nat (length (p_shape P))) axes ->
  create_allreduction_partition P axes v =
  Ok (Some (mkpart (p_root P) (ar_members P axes idx) (reduced_shape axes (p_shape P)))).
Proof.
  intros HP Hw Hax. pose proof Hw as E. apply index_in_spec in E; auto.
  unfold create_allreduction_partition. rewrite E.
  replace (existsb _ axes) with false.
  2:{ symmetry. clear - Hax. induction Hax; simpl; auto. apply orb_false_iff. split; auto.
      apply Z.leb_gt. lia. }
  rewrite reduced_shape_model.
  assert (HF : forall i, In i (filtered_range_index (p_shape P) (assemble_index_filter idx axes true)) ->
     valid_index (p_shape P) i).
  { intros i Hi. apply filter_In in Hi as [Hi _]. now apply in_range_index. }
  rewrite (rmap_ok _ (row_major (p_shape P))) by (intros; apply cart_rank_ok; auto).
  cbn [rbind]. unfold incl_ranks. rewrite map_map. unfold create_cartesian_topology.
  rewrite map_length, allreduction_length by (try apply pos_nonneg; first [apply HP|apply Hw]).
  rewrite Z.eqb_refl. reflexivity.
Qed.

Lemma ar_members_in P axes idx v w : part_ok P -> worker_at P idx v ->
  (In w (ar_members P axes idx) <-> exists idx', worker_at P idx' w /\ agree_off axes idx idx').
Proof.
  intros HP Hw. pose proof (valid_index_length _ _ (proj1 Hw)) as HL.
  unfold ar_members. rewrite in_map_iff. split.
  - intros (i & <- & Hi). apply filtered_spec in Hi as [Hv Hi]; auto. exists i.
    destruct (worker_exists P i HP Hv) as [u Hu]. pose proof Hu as [_ Hn].
    apply nth_error_nth with (d := 0) in Hn. rewrite Hn. split; auto.
    intros k Hk Hna. symmetry. apply Hi; auto. lia.
  - intros (i & Hi & Hag). exists i. split.
    + destruct Hi as [_ Hn]. now apply nth_error_nth.
    + apply filtered_spec; auto. split; [apply Hi|]. intros k Hk Hna. symmetry. apply Hag; auto. lia.
Qed.

Lemma ar_members_nodup P axes idx : part_ok P -> NoDup (ar_members P axes idx).
Proof.
  intros HP. unfold ar_members.
  assert (HF : forall i, In i (filtered_range_index (p_shape P) (assemble_index_filter idx axes true)) ->
     valid_index (p_shape P) i).
  { intros i Hi. apply filter_In in Hi as [Hi _]. now apply in_range_index. }
  assert (HN : NoDup (filtered_range_index (p_shape P) (assemble_index_filter idx axes true)))
    by (apply NoDup_filter, range_index_nodup).
  revert HF HN. generalize (filtered_range_index (p_shape P) (assemble_index_filter idx axes true)).
  induction l as [|i l IH]; intros HF HN; simpl; constructor.
  - inv HN. intros C. apply in_map_iff in C as (j & Ej & Hj). apply H1.
    destruct (worker_exists P i HP) as [u Hu]; [apply HF; now left|].
    destruct (worker_exists P j HP) as [u' Hu']; [apply HF; now right|].
    pose proof Hu as [_ E1]. pose proof Hu' as [_ E2].
    apply nth_error_nth with (d := 0) in E1, E2. rewrite E1, E2 in Ej. subst u'.
    now rewrite (worker_at_fun P i j u).
  - inv HN. apply IH; auto. intros; apply HF; now right.
Qed.
