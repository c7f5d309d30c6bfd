(** Distributed batch normalisation in machine arithmetic: C82. *)

From Coq Require Import Sorting.Permutation.
From Verif Require Import Prelude SpecIndex SpecLayout SpecPartition ModelSlicing ProofSlicing ProofDecomposition ModelPartition ProofPartition
  Ring Tensor ModelCollectives ProofCollectives PropCollectives Blocks ModelRepartition ProofRepartition PropRepartition ModelBatchNorm SpecBatchNorm ProofBatchNorm PropBatchNorm
  ModelConv ProofConv PropLinear ModelReduce SpecSum ProofReduce PropReduce PropLossReduce ModelBatchNormReduce.

Open Scope Z_scope.

(** Torch sums along a dimension: each element is a sum of the elements that it
    replaces, not necessarily alike on all workers. *)
Definition torch_sums_by {R : CRing} (M : machine R) (sum : Z -> nat -> tensor R -> result (tensor R)) : Prop :=
  forall v k t, nonneg_shape (tshape t) -> (k < length (tshape t))%nat ->
    exists t', sum v k t = Ok t' /\ tshape t' = upd k 1 (tshape t) /\
      forall i, valid_index (upd k 1 (tshape t)) i -> evaluates M (map (fun a => Num (tat t (upd k a i))) (zrange (nth k (tshape t) 0))) (tat t' i).
Definition adders_ok {R : CRing} (M : machine R) (T : adders R) : Prop := adds M (a_mpi T) /\ torch_sums_by M (a_sum T).

(** ** A sequential layer with the same operations, whose sums may be computed in any
    order and bracketing *)
Section Machine.
  Context {R : CRing}.
  Variables (M : machine R) (B : bnops R).

  (** [m] may be computed for the means of the channels of [G], and [w] for the
      variances, given [m]. *)
  Definition batch_mean (G : tensor R) (m : Z -> R) : Prop :=
    forall c, 0 <= c < nth 1 (tshape G) 0 ->
      exists s, evaluates M (map (fun i => Num (tat G i)) (channel_entries (tshape G) c)) s /\ m c = b_over B s (channel_volume (tshape G)).
  Definition batch_var (G : tensor R) (m w : Z -> R) : Prop :=
    batch_mean (mkt (tshape G) (fun i => b_square B (b_sub B (tat G i) (m (nth 1 i 0))))) w.

  Variables (cumulative affine track : bool).

  Definition averaged_by (n : Z) (old new : R) : R :=
    if cumulative then b_over B (b_add B new (b_times B n old)) (n + 1) else b_add B (b_keep B old) (b_take B new).
  Definition normalised_by (m w gamma beta : Z -> R) (G : tensor R) : tensor R :=
    mkt (tshape G) (fun i =>
      let c := nth 1 i 0 in
      let y := b_div B (b_sub B (tat G i) (m c)) (b_sqrt B (b_eps B (w c))) in
      if affine then b_add B (b_mul B (gamma c) y) (beta c) else y).

  (** [Y] and the statistics [q'] may result from a call with the statistics [q]:
      there is one mean and one variance per channel for the output and for the
      statistics. *)
  Definition machine_step (q : running R) (s : step R) (Y : tensor R) (q' : running R) : Prop :=
    exists m w : Z -> R,
      (if negb (s_training s) && track then m = q_mean q /\ w = q_var q else batch_mean (s_input s) m /\ batch_var (s_input s) m w) /\
      Y = normalised_by m w (s_gamma s) (s_beta s) (s_input s) /\
      q' = if s_training s && track
           then mkrun (fun c => averaged_by (q_seen q) (q_mean q c) (m c)) (fun c => averaged_by (q_seen q) (q_var q c) (w c)) (q_seen q + 1)
           else q.
  Definition fresh_by : running R := mkrun (fun _ => rzero) (fun _ => b_one B) 0.
  Inductive machine_run : running R -> list (step R) -> list (tensor R) -> running R -> Prop :=
  | run_nil q : machine_run q [] [] q
  | run_cons q s Y q' l Ys q'' : machine_step q s Y q' -> machine_run q' l Ys q'' -> machine_run q (s :: l) (Y :: Ys) q''.
End Machine.

(** Each worker holds the statistics of its channels. *)
Definition tracks_by {R : CRing} (P : part) (num_features : Z) (cumulative : bool) (q : running R) (st : Z -> bnstate R) : Prop :=
  let d := (length (p_shape P) - 2)%nat in
  let e := balanced1 num_features (nth 1 (p_shape P) 0) in
  forall idx v, worker_at P idx v ->
    teq (running_mean (st v)) (channels d e (nth 1 idx 0) (q_mean q)) /\
    teq (running_var (st v)) (channels d e (nth 1 idx 0) (q_var q)) /\
    (cumulative = true -> inputs_seen (st v) = q_seen q).

Definition C82_statement : Prop :=
  forall (R : CRing) (M : machine R) (B : bnops R) P num_features cumulative affine track dt rg (calls : list (bnexec R)) (steps : list (step R)),
  part_ok P -> (2 <= length (p_shape P))%nat -> 0 <= num_features ->
  Forall2 (fun x s => distributes P num_features affine (x_call x) s /\ adders_ok M (x_mean x) /\ adders_ok M (x_var x)) calls steps ->
  let '(ys, st) := bn_run_by B P num_features cumulative affine track dt rg (bn_start_by B P num_features) calls in
  exists Ys q,
    machine_run M B cumulative affine track (fresh_by B) steps Ys q /\
    length ys = length calls /\ length Ys = length calls /\
    (forall k y Y s idx v, nth_error ys k = Some y -> nth_error Ys k = Some Y -> nth_error steps k = Some s -> worker_at P idx v ->
       exists t, y v = Ok t /\ teq t (block (s_layout s) idx Y)) /\
    tracks_by P num_features cumulative q st.

(** With exact arithmetic the mean and the variance are C34's. *)
Definition exact_ops {R : CRing} (A : arith R) (eps momentum : R) : bnops R :=
  mkops radd rsub rmul (adiv A) (fun a => rmul a a) (asqrt A) (fun a n => adiv A a (rint n)) (fun n a => rmul (rint n) a)
    (fun a => radd a eps) (rmul (rsub rone momentum)) (rmul momentum) rone.
Definition C82_exact_statement : Prop :=
  forall (R : CRing) (A : arith R) eps momentum (G : tensor R) m w,
  batch_mean (exact_machine R) (exact_ops A eps momentum) G m /\ batch_var (exact_machine R) (exact_ops A eps momentum) G m w <->
  forall c, 0 <= c < nth 1 (tshape G) 0 -> m c = channel_mean A G c /\ w c = channel_var A G c.

(** ** Proofs *)

Lemma perm_filter {A} (p : A -> bool) l l' : Permutation l l' -> Permutation (filter p l) (filter p l').
Proof.
  intros H. induction H as [|a l l' H IH|a b l|l l' l'' H IH H' IH']; cbn [filter]; auto.
  - destruct (p a); auto.
  - destruct (p a), (p b); auto. apply perm_swap.
  - eapply Permutation_trans; eauto.
Qed.
Lemma flat_map_when {A B} (p : A -> bool) (f : A -> list B) l : flat_map (fun a => if p a then f a else []) l = flat_map f (filter p l).
Proof. induction l as [|a l IH]; [reflexivity|]. cbn [flat_map filter]. destruct (p a); cbn [flat_map]; now rewrite IH. Qed.

Lemma upd_upd {A} (a b : A) : forall k l, upd k a (upd k b l) = upd k a l.
Proof. induction k as [|k IH]; intros [|c l]; cbn [upd]; auto. now rewrite IH. Qed.
Lemma upd_same {A} (d : A) : forall k l, (k < length l)%nat -> upd k (nth k l d) l = l.
Proof. induction k as [|k IH]; intros [|c l] H; cbn [upd nth length] in *; auto; try lia. now rewrite IH by lia. Qed.
Lemma upd_valid k a s i : (k < length s)%nat -> 0 <= a < nth k s 0 -> valid_index (upd k 1 s) i -> valid_index s (upd k a i).
Proof.
  rewrite !valid_index_nth, upd_length. intros Hk Ha [Hl H]. rewrite upd_length. split; [exact Hl|]. intros j Hj. specialize (H j Hj).
  rewrite upd_nth in H by exact Hk. rewrite upd_nth by lia. destruct (Nat.eqb_spec j k); [now subst|exact H].
Qed.
Lemma upd_valid_back k s i : (k < length s)%nat -> valid_index s i -> valid_index (upd k 1 s) (upd k 0 i) /\ 0 <= nth k i 0 < nth k s 0.
Proof.
  rewrite !valid_index_nth, !upd_length. intros Hk [Hl H]. split; [split; [exact Hl|]|now apply H]. intros j Hj. specialize (H j Hj).
  rewrite !upd_nth by lia. destruct (Nat.eqb_spec j k); [lia|exact H].
Qed.
Lemma upd_zero k s i : (k < length s)%nat -> valid_index (upd k 1 s) i -> upd k 0 i = i.
Proof.
  rewrite valid_index_nth, upd_length. intros Hk [Hl H]. specialize (H k Hk). rewrite upd_nth, Nat.eqb_refl in H by exact Hk.
  replace 0 with (nth k i 0) at 1 by lia. apply upd_same. lia.
Qed.

(** The entries of a channel, from those of the tensor summed along [k]. *)
Lemma channel_along k s c : (k < length s)%nat -> k <> 1%nat ->
  Permutation (flat_map (fun i => map (fun a => upd k a i) (zrange (nth k s 0))) (channel_entries (upd k 1 s) c)) (channel_entries s c).
Proof.
  intros Hk H1. unfold channel_entries.
  assert (E1 : forall a i, nth 1 (upd k a i) 0 = nth 1 i 0).
  { intros a i. destruct (Nat.lt_ge_cases k (length i)) as [L|L].
    - rewrite upd_nth by exact L. destruct (Nat.eqb_spec 1 k); [congruence|reflexivity].
    - f_equal. clear - L. revert i L. induction k as [|k IH]; intros [|b i] L; cbn [upd length] in *; auto; try lia. now rewrite IH by lia. }
  apply NoDup_Permutation.
  - apply NoDup_flat_map; [apply NoDup_filter, indices_nodup| |].
    + intros i Hi. apply filter_In in Hi as [Hi _]. apply in_indices in Hi. apply valid_index_length in Hi. rewrite upd_length in Hi.
      apply NoDup_map_inj; [|apply zrange_nodup]. intros a b _ _ E. apply (f_equal (fun l => nth k l 0)) in E. rewrite !upd_nth, Nat.eqb_refl in E by lia. exact E.
    + intros i j y Hi Hj Hy Hy'. apply filter_In in Hi as [Hi _], Hj as [Hj _]. apply in_indices in Hi, Hj.
      apply in_map_iff in Hy as (a & <- & _), Hy' as (b & E & _). apply (f_equal (upd k 0)) in E. rewrite !upd_upd in E.
      now rewrite !(upd_zero k s) in E by auto.
  - apply NoDup_filter, indices_nodup.
  - intros y. rewrite in_flat_map, filter_In, in_indices. split.
    + intros (i & Hi & Hy). apply filter_In in Hi as [Hi Hc]. apply in_indices in Hi. apply in_map_iff in Hy as (a & <- & Ha). apply in_zrange in Ha.
      split; [now apply upd_valid|]. now rewrite E1.
    + intros [Hy Hc]. destruct (upd_valid_back k s y Hk Hy) as [V1 V2]. exists (upd k 0 y). split.
      * apply filter_In. split; [now apply in_indices|]. now rewrite E1.
      * apply in_map_iff. exists (nth k y 0). split; [|now apply in_zrange]. rewrite upd_upd. apply upd_same. apply valid_index_length in Hy. lia.
Qed.

Section Sums.
  Context {R : CRing}.
  Variables (M : machine R) (T : adders R).
  Hypothesis HT : torch_sums_by M (a_sum T).

  Definition channel_terms (t : tensor R) (c : Z) : list (term R) := map (fun i => Num (tat t i)) (channel_entries (tshape t) c).

  Lemma upd_nonneg k s : nonneg_shape s -> nonneg_shape (upd k 1 s).
  Proof. revert k. induction s as [|n s IH]; intros [|k] H; cbn [upd]; auto; inversion H; subst; constructor; auto; try lia. now apply IH. Qed.

  Lemma sums_fold_by v (ks : list nat) : forall t : tensor R, nonneg_shape (tshape t) -> Forall (fun k => (k < length (tshape t))%nat) ks ->
    exists s, fold_left (fun r k => let* x := r in if Nat.eqb k 1 then Ok x else a_sum T v k x) ks (Ok t) = Ok s /\
      length (tshape s) = length (tshape t) /\
      (forall k, (k < length (tshape t))%nat ->
         nth k (tshape s) 0 = if existsb (Nat.eqb k) ks && negb (Nat.eqb k 1) then 1 else nth k (tshape t) 0) /\
      forall c r, evaluates M (channel_terms s c) r -> evaluates M (channel_terms t c) r.
  Proof.
    induction ks as [|k ks IH]; intros t Hn HF; cbn [fold_left].
    - exists t. repeat split; auto.
    - inversion HF as [|? ? Hk HF']; subst. cbn [rbind]. destruct (Nat.eqb_spec k 1) as [->|Hk1].
      + destruct (IH t Hn HF') as (s & E & L1 & N1 & S1). exists s. repeat split; auto.
        intros j Hj. rewrite N1 by auto. cbn [existsb]. destruct (Nat.eqb_spec j 1); [subst; now rewrite !andb_false_r|reflexivity].
      + destruct (HT v k t Hn Hk) as (t' & -> & Es & Vt).
        assert (Lt : length (tshape t') = length (tshape t)) by (rewrite Es; apply upd_length).
        destruct (IH t') as (s & E & L1 & N1 & S1); [rewrite Es; now apply upd_nonneg|now rewrite Lt|].
        exists s. split; [exact E|]. split; [congruence|]. split.
        * intros j Hj. rewrite N1 by lia. rewrite Es, upd_nth by auto. cbn [existsb]. destruct (Nat.eqb_spec j k) as [->|].
          -- cbn [orb]. destruct (Nat.eqb_spec k 1); [congruence|]. cbn [negb andb]. destruct (existsb _ ks); reflexivity.
          -- reflexivity.
        * intros c r Hr. apply S1 in Hr. unfold channel_terms in *. rewrite Es in Hr.
          pose proof (evaluates_parts M (channel_entries (upd k 1 (tshape t)) c) (fun i => map (fun a => Num (tat t (upd k a i))) (zrange (nth k (tshape t) 0))) (tat t') r) as K.
          eapply ev_order; [|apply K; [|exact Hr]].
          -- rewrite <- (Permutation_map (fun i => Num (tat t i)) (channel_along k (tshape t) c Hk Hk1)).
             rewrite !flat_map_concat_map, concat_map, map_map. apply Permutation_refl'. f_equal. apply map_ext. intros i. now rewrite map_map.
          -- intros i Hi. unfold channel_entries in Hi. apply filter_In in Hi as [Hi _]. apply in_indices in Hi. now apply Vt.
  Qed.

  Lemma local_sums_by_ok (P : part) d v (t : tensor R) : length (p_shape P) = S (S d) -> length (tshape t) = S (S d) -> nonneg_shape (tshape t) ->
    exists s, local_sums_by P T v t = Ok s /\ tshape s = 1 :: nth 1 (tshape t) 0 :: repeat 1 d /\
      forall c, 0 <= c < nth 1 (tshape t) 0 -> evaluates M (channel_terms t c) (tat s (pt d c)).
  Proof.
    intros LP Lt Hn. unfold local_sums_by.
    destruct (sums_fold_by v (seq 0 (length (p_shape P))) t Hn) as (s & E & Ls & Ns & Ss).
    { apply Forall_forall. intros k Hk. apply in_seq in Hk. lia. }
    exists s. split; [exact E|].
    assert (Es : tshape s = 1 :: nth 1 (tshape t) 0 :: repeat 1 d).
    { apply list_eq_nth with (d := 0); [rewrite Ls, Lt; cbn [length]; now rewrite repeat_length|].
      intros k Hk. rewrite Ls, Lt in Hk. rewrite Ns by lia.
      assert (Ex : existsb (Nat.eqb k) (seq 0 (length (p_shape P))) = true).
      { apply existsb_exists. exists k. split; [apply in_seq; lia|apply Nat.eqb_refl]. }
      rewrite Ex. destruct k as [|[|k]]; cbn [Nat.eqb negb andb nth]; auto.
      symmetry. apply (repeat_spec d). apply nth_In. rewrite repeat_length. lia. }
    split; [exact Es|]. intros c Hc. apply Ss. unfold channel_terms.
    assert (Ec : channel_entries (tshape s) c = [pt d c]).
    { apply Permutation_length_1_inv. apply NoDup_Permutation; [constructor; [easy|constructor]|apply NoDup_filter, indices_nodup|].
      intros i. unfold channel_entries. rewrite filter_In, in_indices, Es, channel_index. cbn [In]. split.
      - intros [<-|[]]. split; [eauto|]. cbn [pt nth]. apply Z.eqb_refl.
      - intros [(c' & -> & _) Hi]. cbn [pt nth] in Hi. apply Z.eqb_eq in Hi. subst. now left. }
    rewrite Ec. apply ev_num.
  Qed.
End Sums.

Section Mean.
  Context {R : CRing}.
  Variables (M : machine R) (B : bnops R) (T : adders R).
  Variables (P : part) (d : nat) (L : layout) (dt : Z -> Z) (rg : Z -> bool).
  Hypothesis HT : adders_ok M T.
  Hypothesis HP : part_ok P.
  Hypothesis LP : length (p_shape P) = S (S d).
  Hypothesis HL : layout_ok L.
  Hypothesis HW : layout_workers L = p_shape P.
  Variables (G : tensor R) (x : Z -> tensor R).
  Hypothesis HG : holds_blocks P L G x.
  Notation c_num := (c_num L).
  Notation c_off := (c_off L).

  Definition own_by (u : Z) : tensor R := value_or (local_sums_by P T u (x u)).

  (** The entries of a channel in one block. *)
  Definition block_terms (ch : Z) (idx : list Z) : list (term R) :=
    map (fun i => Num (tat G i)) (map (vadd (block_lo L idx)) (channel_entries (block_shape L idx) ch)).

  Lemma own_by_ok idx u : worker_at P idx u -> local_sums_by P T u (x u) = Ok (own_by u) /\
    tshape (own_by u) = 1 :: c_num (nth 1 idx 0) :: repeat 1 d /\
    forall ch, 0 <= ch < c_num (nth 1 idx 0) -> evaluates M (block_terms ch idx) (tat (own_by u) (pt d ch)).
  Proof.
    intros Hu. destruct HG as [_ HB]. destruct (HB idx u Hu) as [Es Et]. cbn [block tshape tat] in Es, Et.
    assert (Hi : valid_index (p_shape P) idx) by apply Hu. pose proof (valid_index_length _ _ Hi) as Hlen. pose proof (c_len P d L LP HW) as HcL.
    destruct (local_sums_by_ok M T (proj2 HT) P d u (x u) LP) as (s & E & Ss & Ts).
    { rewrite Es, block_shape_length by lia. exact HcL. }
    { rewrite Es. now apply block_shape_nonneg. }
    unfold own_by. rewrite E. cbn [value_or]. split; [reflexivity|]. rewrite Es, (c_shape P d L LP HW) in Ss, Ts by auto. split; [exact Ss|].
    intros ch Hch. specialize (Ts ch Hch). unfold channel_terms in Ts. rewrite Es in Ts. unfold block_terms. rewrite map_map.
    erewrite map_ext_in in Ts; [exact Ts|]. intros p Hp. unfold channel_entries in Hp. apply filter_In in Hp as [Hp _].
    apply in_indices in Hp. cbv beta. f_equal. apply Et. now rewrite Es.
  Qed.

  Lemma own_by_shapes : shapes_ok P (storage P d) true own_by.
  Proof.
    intros v Hv. assert (Hv' : In v (p_ranks P)) by (destruct Hv; auto; now apply (st_sub P d HP LP)).
    destruct (worker_at_exists P v HP Hv') as [idx Hi]. destruct (own_by_ok idx v Hi) as (_ & -> & _).
    split; [|intros _; discriminate]. apply (chan_shape_nonneg P d dt rg LP). apply (c_num_nonneg P d L LP HL HW).
  Qed.

  Lemma channel_blocks c ch : 0 <= c -> 0 <= ch < c_num c ->
    Permutation (flat_map (block_terms ch) (filter (fun idx => nth 1 idx 0 =? c) (range_index (p_shape P))))
                (map (fun i => Num (tat G i)) (channel_entries (layout_shape L) (c_off c + ch))).
  Proof.
    intros Hc Hch. unfold channel_entries at 1.
    rewrite <- (Permutation_map (fun i => Num (tat G i)) (perm_filter (fun i => nth 1 i 0 =? c_off c + ch) _ _ (block_points L HL))).
    rewrite HW, filter_flat_map, <- flat_map_when.
    rewrite !flat_map_concat_map, concat_map, map_map. apply Permutation_refl'. f_equal. apply map_ext_in. intros idx Hidx.
    apply in_range_index in Hidx. rewrite filter_map.
    pose proof (fun p => block_channel P d L LP HW idx p Hidx) as Hn.
    destruct (Z.eqb_spec (nth 1 idx 0) c) as [Ec|Ec].
    - unfold block_terms. do 2 f_equal. unfold channel_entries. apply filter_ext_in. intros p Hp. apply in_indices in Hp.
      destruct (Hn p Hp) as [-> _]. rewrite Ec. destruct (Z.eqb_spec (nth 1 p 0) ch), (Z.eqb_spec (c_off c + nth 1 p 0) (c_off c + ch)); auto; lia.
    - rewrite (filter_ext_in _ (fun _ => false)).
      + clear. induction (indices _) as [|a l IH]; auto.
      + intros p Hp. apply in_indices in Hp. destruct (Hn p Hp) as [-> Hr].
        destruct (Z.eqb_spec (c_off (nth 1 idx 0) + nth 1 p 0) (c_off c + ch)) as [E|]; [|reflexivity]. exfalso. apply Ec.
        apply (c_disjoint P d L dt rg LP HL HW _ _ (nth 1 p 0) ch); auto. now apply (idx_nonneg P d L LP HW).
  Qed.

  Notation sums := (channel_sums_by P dt rg (storage P d) T x).

  Lemma sums_by_ok :
    (forall c s, worker_at P (pt d c) s -> exists t, sums s = Ok t /\
       tshape t = 1 :: c_num c :: repeat 1 d /\
       forall ch, 0 <= ch < c_num c -> evaluates M (map (fun i => Num (tat G i)) (channel_entries (layout_shape L) (c_off c + ch))) (tat t (pt d ch))) /\
    (forall v, In v (p_ranks P) -> exists t, sums v = Ok t /\ nonneg_shape (tshape t) /\ tshape t <> []).
  Proof.
    destruct (C61_sum_reduce_proof P (storage P d) false false false true dt rg (st_rd P d HP LP)) as (dst & D1 & D2 & HC).
    specialize (D2 (or_introl eq_refl)).
    assert (Hd : forall idx u, worker_at P idx u -> dst u = wk P (pt d (nth 1 idx 0))).
    { intros idx u Hu. symmetry. apply D2; [eapply worker_at_In; eauto|]. apply (st_paired P d HP LP). eauto. }
    specialize (HC R M (a_mpi T) own_by (proj1 HT) own_by_shapes).
    destruct HC as (F1 & F2 & _).
    { intros s s' Hs Hs' E. destruct (worker_at_exists P s HP Hs) as [i Hi], (worker_at_exists P s' HP Hs') as [i' Hi'].
      rewrite (Hd i s Hi), (Hd i' s' Hi') in E. apply wk_inj in E; [|exact HP|apply (st_valid P d LP), Hi|apply (st_valid P d LP), Hi'].
      injection E as E. destruct (own_by_ok i s Hi) as (_ & -> & _), (own_by_ok i' s' Hi') as (_ & -> & _). now rewrite E. }
    assert (K : forall c s, worker_at P (pt d c) s -> exists t, sums s = Ok t /\
       tshape t = 1 :: c_num c :: repeat 1 d /\
       forall ch, 0 <= ch < c_num c -> evaluates M (map (fun i => Num (tat G i)) (channel_entries (layout_shape L) (c_off c + ch))) (tat t (pt d ch))).
    { intros c s Hs. assert (Es : s = wk P (pt d c)) by (symmetry; now apply worker_wk).
      assert (Hst : In s (p_ranks (storage P d))) by (eapply worker_at_In; apply (st_worker P d HP LP); eauto).
      destruct (F1 s Hst) as (t & Et & St & Vt). exists t. split; [exact Et|].
      assert (Sh : tshape t = 1 :: c_num c :: repeat 1 d).
      { rewrite (St s); [|eapply worker_at_In; eauto|rewrite (Hd _ _ Hs); cbn [pt nth]; symmetry; exact Es].
        destruct (own_by_ok _ _ Hs) as (_ & -> & _). reflexivity. }
      split; [exact Sh|]. intros ch Hch. specialize (Vt (pt d ch)).
      assert (Hc0 : 0 <= c) by (destruct Hs as [Hi _]; apply (idx_nonneg P d L LP HW) in Hi; exact (proj1 Hi)).
      rewrite (ranks_wk P HP), filter_map, map_map in Vt.
      rewrite (filter_ext_in _ (fun idx => nth 1 idx 0 =? c)) in Vt.
      2:{ intros idx Hidx. apply in_range_index in Hidx. pose proof (wk_worker P idx HP Hidx) as Hw. rewrite (Hd _ _ Hw), Es.
          destruct (Z.eqb_spec (nth 1 idx 0) c) as [Ec|Ec]; [rewrite Ec; apply Z.eqb_refl|].
          destruct (Z.eqb_spec (wk P (pt d (nth 1 idx 0))) (wk P (pt d c))) as [E|]; [|reflexivity]. exfalso. apply Ec.
          apply wk_inj in E; auto; [now injection E|now apply (st_valid P d LP)|apply Hs]. }
      eapply ev_order; [apply channel_blocks; auto|].
      apply (evaluates_parts M _ (block_terms ch) (fun idx => tat (own_by (wk P idx)) (pt d ch))); [|exact Vt].
      intros idx Hidx. apply filter_In in Hidx as [Hidx Ec]. apply in_range_index in Hidx. apply Z.eqb_eq in Ec.
      destruct (own_by_ok _ _ (wk_worker P idx HP Hidx)) as (_ & _ & V). apply V. now rewrite Ec. }
    split; [exact K|]. intros v Hv. destruct (in_dec Z.eq_dec v (p_ranks (storage P d))) as [Hin|Hn].
    - destruct (worker_at_exists _ v (st_ok P d HP LP) Hin) as [idx Hi]. destruct (st_index P d LP idx v Hi) as (c & -> & _).
      apply (st_worker P d HP LP) in Hi. destruct (K c v Hi) as (t & Et & St & _). exists t. split; [exact Et|]. rewrite St.
      split; [apply (chan_shape_nonneg P d dt rg LP), (c_num_nonneg P d L LP HL HW)|discriminate].
    - destruct (F2 v Hv Hn) as (t & Et & St). exists t. split; [exact Et|]. rewrite St.
      split; [|discriminate]. destruct (worker_at_exists P v HP Hv) as [idx Hi]. destruct (own_by_ok idx v Hi) as (_ & So & _).
      unfold batch_of. rewrite So. cbn [hd]. repeat constructor; lia.
  Qed.

  Variable volume : Z -> Z.
  Hypothesis Hvol : forall u, In u (p_ranks P) -> volume u = channel_volume (tshape G).
  Notation mean := (compute_mean_by B P dt rg (storage P d) volume T x).

  Lemma mean_by_ok idx v : worker_at P idx v -> exists m, mean v = Ok m /\
    tshape m = 1 :: c_num (nth 1 idx 0) :: repeat 1 d /\
    forall ch, 0 <= ch < c_num (nth 1 idx 0) ->
      tat m (pt d ch) = b_over B (tat (value_or (sums (wk P (pt d (nth 1 idx 0))))) (pt d ch)) (channel_volume (tshape G)).
  Proof.
    intros Hv. destruct sums_by_ok as [S1 S2]. destruct (S2 v) as (tv & Etv & _); [eapply worker_at_In; eauto|].
    destruct (own_by_ok idx v Hv) as (Eo & _). unfold compute_mean_by. rewrite Eo, Etv. cbn [rbind].
    set (y := fun u => tmap (fun a => b_over B a (volume u)) (value_or (sums u))).
    destruct (C14_proof R (storage P d) P false false false true dt rg y) as (B1 & _).
    - exact (st_bc P d HP LP).
    - now left.
    - intros u Hu. assert (Hu' : In u (p_ranks P)) by (destruct Hu; auto; now apply (st_sub P d HP LP)).
      destruct (S2 u Hu') as (t & Et & Nt & Ne). unfold y. rewrite Et. split; [exact Nt|intros _; exact Ne].
    - destruct (B1 v) as [_ B2]; [eapply worker_at_In; eauto|]. set (s := wk P (pt d (nth 1 idx 0))).
      assert (Hs : worker_at P (pt d (nth 1 idx 0)) s) by (apply wk_worker; auto; apply (st_valid P d LP), Hv).
      destruct (B2 s) as (m & Em & Qs & Qt); [apply (st_paired P d HP LP); eauto|]. exists m. split; [exact Em|].
      destruct (S1 _ _ Hs) as (t & Et & St & Vt). unfold y in Qs, Qt. rewrite Et in Qs, Qt |- *. cbn [value_or tmap tshape tat] in Qs, Qt |- *.
      rewrite St in Qs. split; [exact Qs|]. intros ch Hch. rewrite Qt by (rewrite Qs; apply channel_index; eauto).
      rewrite Hvol by (eapply worker_at_In; exact Hs). reflexivity.
  Qed.

  (** The mean of channel [g]. *)
  Definition owner (g : Z) : Z :=
    match find (fun c => (c_off c <=? g) && (g <? c_off c + c_num c)) (zrange (nth 1 (p_shape P) 0)) with Some c => c | None => 0 end.
  Definition mean_at (g : Z) : R :=
    b_over B (tat (value_or (sums (wk P (pt d (owner g))))) (pt d (g - c_off (owner g)))) (channel_volume (tshape G)).

  Lemma owner_ok c ch : 0 <= c < nth 1 (p_shape P) 0 -> 0 <= ch < c_num c -> owner (c_off c + ch) = c.
  Proof.
    intros Hc Hch. unfold owner. destruct (find _ _) as [c'|] eqn:Ef.
    - apply find_some in Ef as [Hc' E]. apply in_zrange in Hc'. apply andb_true_iff in E as [E1 E2].
      apply Z.leb_le in E1. apply Z.ltb_lt in E2. apply (c_disjoint P d L dt rg LP HL HW c' c (c_off c + ch - c_off c') ch); lia.
    - exfalso. apply in_zrange in Hc. pose proof (find_none _ _ Ef c Hc) as E. cbv beta in E.
      apply andb_false_iff in E as [E|E]; [apply Z.leb_gt in E|apply Z.ltb_ge in E]; lia.
  Qed.
  Lemma owner_exists g : 0 <= g < nth 1 (layout_shape L) 0 -> exists c ch, 0 <= c < nth 1 (p_shape P) 0 /\ 0 <= ch < c_num c /\ g = c_off c + ch.
  Proof.
    intros Hg. pose proof (c_len P d L LP HW) as HcL.
    assert (E : nth 1 (layout_shape L) 0 = zsum (nth 1 L [])).
    { unfold layout_shape. rewrite nth_indep with (d' := zsum []) by (rewrite map_length; lia). now rewrite map_nth. }
    assert (El : nth 1 (p_shape P) 0 = Z.of_nat (length (nth 1 L []))).
    { rewrite <- HW. unfold layout_workers. rewrite nth_indep with (d' := Z.of_nat (@length Z [])) by (rewrite map_length; lia).
      now rewrite (map_nth (fun e : list Z => Z.of_nat (length e))). }
    rewrite E in Hg. destruct (ext_owner (nth 1 L []) g (c_nonneg P d L LP HL HW) Hg) as (k & Hk & Hg').
    rewrite zsum_firstn_S in Hg'. exists (Z.of_nat k), (g - zsum (firstn k (nth 1 L []))). unfold ProofBatchNorm.c_num, ProofBatchNorm.c_off.
    rewrite Nat2Z.id, El. lia.
  Qed.

  Lemma mean_by_channels :
    (forall idx v, worker_at P idx v -> exists m, mean v = Ok m /\ teq m (channels d (nth 1 L []) (nth 1 idx 0) mean_at)) /\
    batch_mean M B G mean_at.
  Proof.
    split.
    - intros idx v Hv. destruct (mean_by_ok idx v Hv) as (m & Em & Sm & Vm). exists m. split; [exact Em|].
      apply channels_intro; [exact Sm|]. intros ch Hch. rewrite (Vm ch Hch). change (zsum (firstn (Z.to_nat (nth 1 idx 0)) (nth 1 L []))) with (c_off (nth 1 idx 0)).
      unfold mean_at. rewrite owner_ok; auto; [|apply (idx_nonneg P d L LP HW), Hv].
      replace (c_off (nth 1 idx 0) + ch - c_off (nth 1 idx 0)) with ch by lia. reflexivity.
    - intros g Hg. rewrite (proj1 HG) in Hg |- *. destruct (owner_exists g Hg) as (c & ch & Hc & Hch & ->). unfold mean_at.
      rewrite owner_ok by auto. replace (c_off c + ch - c_off c) with ch by lia.
      assert (Hi : valid_index (p_shape P) (pt d c)).
      { destruct HP as (_ & _ & Hpos & _). clear - LP Hc Hpos. destruct (p_shape P) as [|a [|b r]]; try discriminate. cbn [nth] in Hc.
        inversion Hpos as [|? ? Ha Hp']; subst. inversion Hp' as [|? ? Hb Hr]; subst. injection LP as <-.
        constructor; [lia|]. constructor; [lia|]. clear - Hr. induction Hr; cbn [length repeat]; constructor; auto; lia. }
      destruct (proj1 sums_by_ok c _ (wk_worker P _ HP Hi)) as (t & -> & _ & Vt). eexists. split; [apply (Vt ch Hch)|]. now rewrite (proj1 HG).
  Qed.
End Mean.

Section Steps.
  Context {R : CRing}.
  Variables (M : machine R) (B : bnops R).
  Variables (P : part) (num_features : Z) (cumulative affine track : bool) (dt : Z -> Z) (rg : Z -> bool).
  Hypothesis HP : part_ok P.
  Hypothesis LP2 : (2 <= length (p_shape P))%nat.
  Notation d := (length (p_shape P) - 2)%nat.
  Notation e := (balanced1 num_features (nth 1 (p_shape P) 0)).
  Let LPd : length (p_shape P) = S (S d). Proof. lia. Qed.

  Variables (x : bnexec R) (s : step R) (q : running R) (st : Z -> bnstate R).
  Hypothesis Hc : distributes P num_features affine (x_call x) s.
  Hypothesis Hm : adders_ok M (x_mean x).
  Hypothesis Hw : adders_ok M (x_var x).
  Hypothesis Hst : tracks_by P num_features cumulative q st.
  Notation L := (s_layout s).
  Notation G := (s_input s).

  Lemma update_by_ok stv c m w fm fw :
    teq (running_mean stv) (channels d e c (q_mean q)) -> teq (running_var stv) (channels d e c (q_var q)) -> (cumulative = true -> inputs_seen stv = q_seen q) ->
    teq m (channels d e c fm) -> teq w (channels d e c fw) ->
    exists st', update_running_by B cumulative stv m w = Ok st' /\
      teq (running_mean st') (channels d e c (fun k => averaged_by B cumulative (q_seen q) (q_mean q k) (fm k))) /\
      teq (running_var st') (channels d e c (fun k => averaged_by B cumulative (q_seen q) (q_var q k) (fw k))) /\
      (cumulative = true -> inputs_seen st' = q_seen q + 1).
  Proof.
    intros T1 T2 T3 H1 H2. unfold update_running_by, averaged_by. destruct cumulative.
    - rewrite (T3 eq_refl). set (g := fun new old => b_over B (b_add B new (b_times B (q_seen q) old)) (q_seen q + 1)).
      destruct (pointwise_both d e c g _ _ _ _ H1 T1) as (r1 & -> & E1). destruct (pointwise_both d e c g _ _ _ _ H2 T2) as (r2 & -> & E2).
      cbn [rbind]. eexists. split; [reflexivity|]. auto.
    - set (g := fun old new => b_add B (b_keep B old) (b_take B new)).
      destruct (pointwise_both d e c g _ _ _ _ T1 H1) as (r1 & -> & E1). destruct (pointwise_both d e c g _ _ _ _ T2 H2) as (r2 & -> & E2).
      cbn [rbind]. eexists. split; [reflexivity|]. split; [exact E1|]. split; [exact E2|discriminate].
  Qed.

  Notation vol := (vol P (k_input (x_call x))).
  Notation mean := (compute_mean_by B P dt rg (storage P d) vol (x_mean x) (k_input (x_call x))).

  (** The mean and variance of a batch. *)
  Lemma batch_by : exists m w,
    batch_mean M B G m /\ batch_var M B G m w /\
    forall idx v, worker_at P idx v -> exists tm tw,
      mean v = Ok tm /\ teq tm (channels d e (nth 1 idx 0) m) /\
      compute_var_by B P dt rg (storage P d) vol (x_var x) (k_input (x_call x)) mean v = Ok tw /\ teq tw (channels d e (nth 1 idx 0) w).
  Proof.
    destruct Hc as (_ & HF & HB & _). pose proof HF as (HL & HW & He).
    pose proof (vol_ok P L HP HL HW G _ HB) as Hv.
    destruct (mean_by_channels M B (x_mean x) P d L dt rg Hm HP LPd HL HW G _ HB vol Hv) as [M1 M2]. rewrite He in M1.
    set (m := mean_at B (x_mean x) P d L dt rg G (k_input (x_call x))) in *.
    set (D := mkt (tshape G) (fun i => b_square B (b_sub B (tat G i) (m (nth 1 i 0))))).
    assert (Sq : forall idx v, worker_at P idx v -> exists t, squares_by B (k_input (x_call x)) mean v = Ok t /\ teq t (block L idx D)).
    { intros idx v Hi. destruct (M1 idx v Hi) as (tm & Em & Qm). unfold squares_by. rewrite Em. cbn [rbind]. rewrite <- He in Qm.
      destruct (block_channels P d L dt rg LPd HW G (b_sub B) m idx v _ tm Hi (proj2 HB idx v Hi) Qm) as (r & Er & Hr). rewrite Er. cbn [rbind].
      eexists. split; [reflexivity|]. destruct Hr as [Sr Vr]. split; [exact Sr|]. intros p Hp. cbn [tmap tat tshape] in *. rewrite Vr by auto. reflexivity. }
    assert (HD : holds_blocks P L D (fun u => value_or (squares_by B (k_input (x_call x)) mean u))).
    { split; [apply (proj1 HB)|]. intros i u Hu. destruct (Sq i u Hu) as (t & -> & Ht). exact Ht. }
    destruct (mean_by_channels M B (x_var x) P d L dt rg Hw HP LPd HL HW D _ HD vol Hv) as [W1 W2]. rewrite He in W1.
    exists m. eexists. split; [exact M2|]. split; [exact W2|]. intros idx v Hi. destruct (M1 idx v Hi) as (tm & Em & Qm), (W1 idx v Hi) as (tw & Ew & Qw).
    exists tm, tw. split; [exact Em|]. split; [exact Qm|]. split; [|exact Qw]. unfold compute_var_by. destruct (Sq idx v Hi) as (t & -> & _). cbn [rbind]. exact Ew.
  Qed.

  (** The mean and variance that the workers use, and their statistics afterwards. *)
  Lemma statistics_by : exists m w,
      (if negb (s_training s) && track then m = q_mean q /\ w = q_var q else batch_mean M B G m /\ batch_var M B G m w) /\
      forall idx v, worker_at P idx v -> exists tm tw st',
        bn_statistics_by B P num_features cumulative track dt rg st x v = Ok (tm, tw, st') /\
        teq tm (channels d e (nth 1 idx 0) m) /\ teq tw (channels d e (nth 1 idx 0) w) /\
        let q' := if s_training s && track
           then mkrun (fun c => averaged_by B cumulative (q_seen q) (q_mean q c) (m c)) (fun c => averaged_by B cumulative (q_seen q) (q_var q c) (w c)) (q_seen q + 1)
           else q in
        teq (running_mean st') (channels d e (nth 1 idx 0) (q_mean q')) /\ teq (running_var st') (channels d e (nth 1 idx 0) (q_var q')) /\
        (cumulative = true -> inputs_seen st' = q_seen q').
  Proof.
    pose proof Hc as (Ht & HF & HB & _). pose proof HF as (HL & HW & He).
    assert (S0 : forall idx v, worker_at P idx v -> bn_statistics_by B P num_features cumulative track dt rg st x v =
        if negb (s_training s) && track then Ok (running_mean (st v), running_var (st v), st v)
        else let* m := mean v in
             let* w := compute_var_by B P dt rg (storage P d) vol (x_var x) (k_input (x_call x)) mean v in
             if s_training s && track then let* st' := update_running_by B cumulative (st v) m w in Ok (m, w, st') else Ok (m, w, st v)).
      { intros idx v Hi. unfold bn_statistics_by, sum_partition. fold (sum_partition P). rewrite (st_part P d HP LPd). cbn [rbind].
        rewrite (volume_ok P L HP HL HW G _ HB idx v Hi). cbn [rbind]. rewrite (fits_channels P num_features dt rg HP LP2 L HF), Z.eqb_refl. cbn [negb].
        rewrite Ht. reflexivity. }
      destruct (negb (s_training s) && track) eqn:Ee.
      - exists (q_mean q), (q_var q). split; [auto|]. intros idx v Hi. exists (running_mean (st v)), (running_var (st v)), (st v).
        split; [now apply S0 in Hi|]. destruct (Hst idx v Hi) as (T1 & T2 & T3). split; [exact T1|]. split; [exact T2|]. cbv zeta.
        destruct (s_training s), track; try discriminate. auto.
      - destruct batch_by as (m & w & B1 & B2 & B3). exists m, w. split; [auto|]. intros idx v Hi. rewrite (S0 idx v Hi).
        destruct (B3 idx v Hi) as (tm & tw & -> & Q1 & -> & Q2). cbn [rbind]. destruct (Hst idx v Hi) as (T1 & T2 & T3).
        destruct (s_training s && track).
        + destruct (update_by_ok (st v) (nth 1 idx 0) tm tw m w T1 T2 T3 Q1 Q2) as (st' & -> & U). cbn [rbind]. exists tm, tw, st'. cbv zeta. auto.
        + exists tm, tw, (st v). cbv zeta. repeat (split; [solve [auto]|]). exact T3.
  Qed.

  Lemma forward_by : exists Y q', machine_step M B cumulative affine track q s Y q' /\
    forall idx v, worker_at P idx v -> exists y st',
      bn_forward_by B P num_features cumulative affine track dt rg st x v = Ok (y, st') /\
      teq y (block L idx Y) /\
      teq (running_mean st') (channels d e (nth 1 idx 0) (q_mean q')) /\ teq (running_var st') (channels d e (nth 1 idx 0) (q_var q')) /\
      (cumulative = true -> inputs_seen st' = q_seen q').
  Proof.
    pose proof Hc as (Ht & HF & HB & Haff). pose proof HF as (HL & HW & He).
    destruct statistics_by as (m & w & K1 & K2).
    eexists. eexists. split; [exists m, w; split; [exact K1|]; split; reflexivity|]. intros idx v Hv.
    destruct (K2 idx v Hv) as (tm & tw & st' & Es & Qm & Qw & U).
    unfold bn_forward_by. rewrite (st_part P d HP LPd). cbn [rbind]. rewrite Es. cbn [rbind].
    assert (X : forall G0 (g : R -> R -> R) f t m0, teq t (block L idx G0) -> teq m0 (channels d e (nth 1 idx 0) f) ->
              exists r, pointwise g t m0 = Ok r /\ teq r (block L idx (mkt (tshape G0) (fun i => g (tat G0 i) (f (nth 1 i 0)))))).
    { intros G0 g f t m0 H1 H2. rewrite <- He in H2. exact (block_channels P d L dt rg LPd HW G0 g f idx v t m0 Hv H1 H2). }
    destruct (X G (b_sub B) _ _ _ (proj2 HB idx v Hv) Qm) as (r1 & E1 & H1). rewrite E1. cbn [rbind].
    destruct (X _ (fun a b => b_div B a (b_sqrt B (b_eps B b))) _ _ _ H1 Qw) as (r2 & E2 & H2). rewrite E2. cbn [rbind tshape tat] in *.
    unfold normalised_by. destruct affine.
    - destruct (Haff eq_refl) as [[Ga Gb] [Ba Bb]].
      assert (Y : forall (t : Z -> tensor R) f, (forall c v, worker_at P (0 :: c :: repeat 0 d) v -> teq (t v) (channels d e c f)) ->
                 (forall v, In v (p_ranks P) -> nonneg_shape (tshape (t v)) /\ tshape (t v) <> []) ->
                 exists r, broadcast_layer (storage P d) P false false false true dt rg t v = Ok r /\ teq r (channels d e (nth 1 idx 0) f)).
      { intros t f Q1 Q2. rewrite <- He in Q1 |- *. exact (affine_channels P d L dt rg HP LPd t f idx v Q1 Q2 Hv). }
      destruct (Y _ _ Ga Gb) as (gm & -> & Hg). destruct (Y _ _ Ba Bb) as (bt & -> & Hb). cbn [rbind].
      rewrite pointwise_sym. destruct (X _ (fun u v => b_mul B v u) _ _ _ H2 Hg) as (r3 & -> & H3). cbn [rbind].
      destruct (X _ (b_add B) _ _ _ H3 Hb) as (r4 & -> & H4). cbn [rbind tshape tat] in *.
      exists r4, st'. split; [reflexivity|]. split; [exact H4|exact U].
    - exists r2, st'. split; [reflexivity|]. split; [exact H2|exact U].
  Qed.
End Steps.

Lemma C82_proof : C82_statement.
Proof.
  intros R M B P num_features cumulative affine track dt rg calls steps HP LP2 Hn HF.
  assert (Hst : tracks_by P num_features cumulative (fresh_by B) (bn_start_by B P num_features)).
  { intros idx v Hv. destruct (start_tracks R P num_features None HP LP2 Hn idx v Hv) as (T1 & [T2 _] & T3). split; [exact T1|]. split; [|auto].
    split; [exact T2|]. intros i _. reflexivity. }
  revert Hst. generalize (bn_start_by B P num_features) as st, (fresh_by B) as q.
  induction HF as [|c s calls steps (Hc & Hm & Hw) HF IH]; intros st q Hst.
  - cbn [bn_run_by]. exists [], q. split; [constructor|]. split; [reflexivity|]. split; [reflexivity|]. split; [intros [|k]; discriminate|exact Hst].
  - cbn [bn_run_by].
    set (y := fun v => match bn_forward_by B P num_features cumulative affine track dt rg st c v with Ok (t, _) => Ok t | Raise er => Raise er end).
    set (st' := fun v => match bn_forward_by B P num_features cumulative affine track dt rg st c v with Ok (_, s0) => s0 | Raise _ => st v end).
    destruct (forward_by M B P num_features cumulative affine track dt rg HP LP2 c s q st Hc Hm Hw Hst) as (Y & q' & HS & HV).
    assert (K : forall idx v, worker_at P idx v -> (exists t, y v = Ok t /\ teq t (block (s_layout s) idx Y)) /\
      teq (running_mean (st' v)) (channels (length (p_shape P) - 2) (balanced1 num_features (nth 1 (p_shape P) 0)) (nth 1 idx 0) (q_mean q')) /\
      teq (running_var (st' v)) (channels (length (p_shape P) - 2) (balanced1 num_features (nth 1 (p_shape P) 0)) (nth 1 idx 0) (q_var q')) /\
      (cumulative = true -> inputs_seen (st' v) = q_seen q')).
    { intros idx v Hv. destruct (HV idx v Hv) as (t & s' & E & H1 & H2). unfold y, st'. rewrite E. split; [eauto|exact H2]. }
    specialize (IH st' q'). destruct (bn_run_by _ _ _ _ _ _ _ _ st' calls) as [ys stf] eqn:Er.
    destruct IH as (Ys & qf & HR & L1 & L2 & H1 & H2); [intros idx v Hv; apply (K idx v Hv)|].
    exists (Y :: Ys), qf. split; [econstructor; eauto|]. cbn [length]. split; [lia|]. split; [lia|]. split; [|exact H2].
    intros [|k] y0 Y0 s0 idx v E1 E2 E3 Hv; cbn [nth_error] in E1, E2, E3.
    + inv E1. inv E2. inv E3. apply (K idx v Hv).
    + eapply H1; eauto.
Qed.

Lemma C82_exact_proof : C82_exact_statement.
Proof.
  intros R A eps momentum G m w.
  assert (K : forall (H : tensor R) h, batch_mean (exact_machine R) (exact_ops A eps momentum) H h <->
    forall c, 0 <= c < nth 1 (tshape H) 0 -> h c = channel_mean A H c).
  { intros H h. unfold batch_mean. 
    assert (E : forall c s, evaluates (exact_machine R) (map (fun i => Num (tat H i)) (channel_entries (tshape H) c)) s <-> s = sumf (channel_entries (tshape H) c) (tat H)).
    { intros c s. rewrite (C61_exact_proof R). rewrite sumf_map. reflexivity. }
    split; intros Q c Hc; specialize (Q c Hc).
    - destruct Q as (s & Es & ->). apply E in Es. now subst.
    - eexists. split; [apply E; reflexivity|exact Q]. }
  unfold batch_var. rewrite !K. cbn [tshape b_square b_sub exact_ops].
  assert (V : forall c, (forall c, 0 <= c < nth 1 (tshape G) 0 -> m c = channel_mean A G c) -> 0 <= c < nth 1 (tshape G) 0 ->
    channel_mean A (mkt (tshape G) (fun i => rmul (rsub (tat G i) (m (nth 1 i 0))) (rsub (tat G i) (m (nth 1 i 0))))) c = channel_var A G c).
  { intros c Q Hc. unfold channel_mean at 1, channel_var. cbn [tshape tat]. f_equal. apply sumf_ext. intros i Hi. unfold channel_entries in Hi.
    apply filter_In in Hi as [_ Hi]. apply Z.eqb_eq in Hi. cbn [tat]. rewrite Hi, Q by exact Hc. reflexivity. }
  split.
  - intros [Q1 Q2] c Hc. split; [now apply Q1|]. rewrite <- V by auto. now apply Q2.
  - intros Q. split; [intros c Hc; now apply Q|]. intros c Hc. rewrite V; [now apply Q| |exact Hc]. intros c' Hc'. now apply Q.
Qed.

Theorem C82_histories : C82_statement.
Proof. exact C82_proof. Qed.
Theorem C82_exact : C82_exact_statement.
Proof. exact C82_exact_proof. Qed.

(** ** Example: the layer of C34's, with integers in the arithmetic of C61's: sums of
    at least 256 lose digits.  The two calls in training add in different orders. *)
Definition br_sum (odd : Z) (v : Z) (k : nat) (t : tensor Zring) : result (tensor Zring) :=
  if Nat.ltb k (length (tshape t))
  then Ok (@mkt Zring (upd k 1 (tshape t))
             (fun i => alternate_terms ex61_M (v + odd) (map (fun a => Num (tat t (upd k a i))) (zrange (nth k (tshape t) 0)))))
  else Raise ErrTorch.
Definition br_adders (odd : Z) : adders Zring := mkadders (R := Zring) (fun v g l i => alternate ex61_M (v + odd) g l i) (br_sum odd).

Lemma br_adders_ok odd : adders_ok ex61_M (br_adders odd).
Proof.
  split.
  - intros v g l i Hl. exact (alternate_adds ex61_M (v + odd) g l i Hl).
  - intros v k t _ Hk. cbn [a_sum br_adders]. unfold br_sum. destruct (Nat.ltb_spec k (length (tshape t))) as [_|]; [|lia].
    eexists. split; [reflexivity|]. split; [reflexivity|]. intros i _. cbn [tat]. apply alternate_terms_ok.
Qed.

(** Division rounds down; momentum is one half. *)
Definition br_ops : bnops Zring :=
  @mkops Zring (m_add ex61_M) Z.sub (m_mul ex61_M) Z.div (fun a => a * a) Z.sqrt Z.div Z.mul (fun a => a + 1) (fun a => a / 2) (fun a => a / 2) 1.
Definition br_G (b a : Z) : tensor Zring := @mkt Zring [b; 3] (fun i => (a * nth 0 i 0 + 3) * (37 * nth 1 i 0 + 41) mod 200).
Definition br_gamma (c : Z) : Zring := c + 5.
Definition br_steps : list (step Zring) :=
  [@mkstep Zring true (br_G 3 2) br_gamma br_gamma [[2; 1]; [2; 1]];
   @mkstep Zring true (br_G 4 5) br_gamma br_gamma [[1; 3]; [2; 1]];
   @mkstep Zring false (br_G 4 3) br_gamma br_gamma [[1; 3]; [2; 1]]].
Definition br_exec (s : step Zring) : bnexec Zring :=
  mkexec (mkcall (s_training s) (give exP (s_layout s) (s_input s)) (give_channels exP 3 (s_gamma s)) (give_channels exP 3 (s_beta s)))
    (br_adders 0) (br_adders (nth 0 (tshape (s_input s)) 0)).

Lemma br_steps_ok : Forall2 (fun x s => distributes exP 3 true (x_call x) s /\ adders_ok ex61_M (x_mean x) /\ adders_ok ex61_M (x_var x)) (map br_exec br_steps) br_steps.
Proof.
  assert (K : forall s, In s br_steps -> layout_ok (s_layout s) /\ layout_workers (s_layout s) = [2; 2] /\ nth 1 (s_layout s) [] = [2; 1] /\
                         tshape (s_input s) = layout_shape (s_layout s)).
  { intros s [<-|[<-|[<-|[]]]]; (split; [repeat constructor; lia|]); repeat split. }
  revert K. generalize br_steps. intros l K. induction l as [|s l IH]; [constructor|]. cbn [map]. constructor.
  - split; [|split; apply br_adders_ok].
    destruct (K s (or_introl eq_refl)) as (B1 & B2 & B3 & B4). split; [reflexivity|]. split; [split; [exact B1|]; split; [exact B2|exact B3]|].
    split; [apply give_blocks; [exact exP_ok|exact B4]|]. intros _.
    split; apply give_parameter; try exact exP_ok; cbn; lia.
  - apply IH. intros s' Hs'. apply K. now right.
Qed.

Definition br_show (t : tensor Zring) : list Z * list Z := (tshape t, map (tat t) (indices (tshape t))).
Definition br_run (cumulative : bool) := bn_run_by br_ops exP 3 cumulative true true (fun _ => 0) (fun _ => false) (bn_start_by br_ops exP 3) (map br_exec br_steps).
Definition br_outputs (cumulative : bool) (v : Z) := map (fun y => match y v with Ok t => br_show t | Raise _ => ([], []) end) (fst (br_run cumulative)).
Definition br_state (cumulative : bool) (v : Z) :=
  let st := snd (br_run cumulative) v in (br_show (running_mean st), br_show (running_var st), inputs_seen st).

(** Channel 2 has the sum 325 in the first call, which is rounded to 320, and the
    mean 106; workers 1 and 0 share it. *)
Example C82_example :
  part_ok exP /\ Forall2 (fun x s => distributes exP 3 true (x_call x) s /\ adders_ok ex61_M (x_mean x) /\ adders_ok ex61_M (x_var x)) (map br_exec br_steps) br_steps /\
  br_outputs true 1 = [([2; 1], [7; 7]); ([1; 1], [14]); ([1; 1], [7])] /\
  br_outputs false 0 = [([1; 1], [-7]); ([3; 1], [7; 0; -7]); ([3; 1], [7; -7; 21])] /\
  map (br_state true) [3; 1; 2; 0] =
    [(([1; 2], [97; 70]), ([1; 2], [1248; 2208]), 2); (([1; 1], [105]), ([1; 1], [3136]), 2);
     (([1; 2], [97; 70]), ([1; 2], [1248; 2208]), 2); (([1; 1], [105]), ([1; 1], [3136]), 2)] /\
  br_state false 0 = (([1; 1], [78]), ([1; 1], [1760]), 0).
Proof.
  split; [exact exP_ok|]. split; [exact br_steps_ok|]. split; [vm_compute; reflexivity|]. split; [vm_compute; reflexivity|].
  split; vm_compute; reflexivity.
Qed.

Print Assumptions C82_histories.
Print Assumptions C82_exact.
