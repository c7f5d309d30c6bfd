(** What one worker of P_w contributes to the output of a convolution. *)

From Verif Require Import Prelude SpecIndex SpecLayout SpecPartition SpecHalo ModelSlicing ModelDecomposition ModelPartition ProofSlicing
  ProofDecomposition ProofPartition Ring Tensor ModelCollectives ProofCollectives PropCollectives Blocks ModelUtilities P2P Rounds
  ModelRepartition ProofRepartition PropRepartition ModelHaloMixin ProofHaloMixin PropHaloMixin ModelHaloExchange PropHaloExchange
  ModelFeatureLayer SpecFeature ProofFeatureLayer PropFeatureLayer PropFeatureConv ModelLinear ProofWork PropLinear ModelConv ProofConv.

(** ** Blocks of balanced layouts *)

Lemma bal_lo_cons n ns P Ps i is : 0 < P -> 0 <= i < P ->
  block_lo (balanced (n :: ns) (P :: Ps)) (i :: is) = start1 P i n :: block_lo (balanced ns Ps) is.
Proof. intros HP Hi. unfold block_lo, balanced. cbn [map2]. now rewrite balanced1_prefix by lia. Qed.
Lemma bal_shape_cons n ns P Ps i is : 0 <= i < P ->
  block_shape (balanced (n :: ns) (P :: Ps)) (i :: is) = subshape1 P i n :: block_shape (balanced ns Ps) is.
Proof. intros Hi. unfold block_shape, balanced. cbn [map2]. now rewrite balanced1_nth. Qed.

Lemma unit_sub n : subshape1 1 0 n = n.
Proof.
  pose proof (start1_step 1 0 n ltac:(lia) ltac:(lia)) as A. change (0 + 1) with 1 in A. rewrite start1_P, start1_0 in A by lia. lia.
Qed.

Lemma ones_lo ns : block_lo (balanced ns (repeat 1 (length ns))) (repeat 0 (length ns)) = repeat 0 (length ns).
Proof.
  induction ns as [|n ns IH]; [reflexivity|]. cbn [length repeat]. rewrite bal_lo_cons by lia. rewrite IH.
  now rewrite start1_0 by lia.
Qed.
Lemma ones_shape ns : block_shape (balanced ns (repeat 1 (length ns))) (repeat 0 (length ns)) = ns.
Proof.
  induction ns as [|n ns IH]; [reflexivity|]. cbn [length repeat]. rewrite bal_shape_cons by lia. rewrite IH.
  now rewrite unit_sub.
Qed.
Lemma zeros_vadd n : forall l, length l = n -> vadd (repeat 0 n) l = l.
Proof. intros l <-. induction l as [|a l IH]; [reflexivity|]. unfold vadd in *. cbn [length repeat map2]. now rewrite IH. Qed.

Lemma start1_sub_le P i n : 0 < P -> 0 <= n -> 0 <= i < P -> 0 <= start1 P i n /\ start1 P i n + subshape1 P i n <= n.
Proof.
  intros HP Hn Hi. pose proof (start1_mono P 0 i n HP Hn ltac:(lia)) as A. rewrite start1_0 in A by lia.
  pose proof (start1_mono P (i + 1) P n HP Hn ltac:(lia)) as B. rewrite start1_P, start1_step in B by lia. lia.
Qed.

Lemma subshape1_pos P i n : 0 <= i < P -> P <= n -> 0 < subshape1 P i n.
Proof.
  intros Hi Hn. unfold subshape1. pose proof (Z.div_mod n P ltac:(lia)). pose proof (Z.mod_pos_bound n P ltac:(lia)).
  assert (1 <= n / P) by (apply Z.div_le_lower_bound; lia). destruct (_ <? _); lia.
Qed.

(** A block of a block layout lies inside the tensor. *)
Lemma bal_valid ns : forall Ps is q, nonneg_shape ns -> length ns = length Ps -> pos_shape Ps -> valid_index Ps is ->
  valid_index (block_shape (balanced ns Ps) is) q -> valid_index ns (vadd (block_lo (balanced ns Ps) is) q).
Proof.
  induction ns as [|n ns IH]; intros [|P Ps] is q Hn HL HP Hi Hq; try discriminate.
  - apply valid_index_nil in Hi. subst is. apply valid_index_nil in Hq. subst q. constructor.
  - apply valid_index_cons_inv in Hi as (i & is' & -> & Hi & His). inversion Hn; subst. inversion HP; subst.
    rewrite bal_shape_cons in Hq by auto. rewrite bal_lo_cons by auto.
    apply valid_index_cons_inv in Hq as (a & q' & -> & Ha & Hq). injection HL as HL.
    pose proof (start1_sub_le P i n ltac:(lia) ltac:(lia) Hi).
    unfold vadd. cbn [map2]. apply valid_index_cons. split; [lia|]. now apply IH.
Qed.

(** ** The local layers *)

Section Parts.
  Context {R : CRing}.
  Variables (co ci : Z) (S : list Z) (w : window) (groups cin cout b : Z) (ys : list Z).
  Variables (W X : tensor R) (bias : option (tensor R)).
  Let nk := length (w_kernel w).

  Definition weight_block (j i : Z) : tensor R :=
    block (balanced (tshape W) (co :: ci :: repeat 1 nk)) (j :: i :: repeat 0 nk) W.
  Definition bias_block (j : Z) : option (tensor R) :=
    match bias with Some v => Some (block (balanced [cout] [co]) [j] v) | None => None end.
  Definition part_kernel (j i : Z) : kernel :=
    conv_kernel w (subshape1 co j cout) groups (weight_block j i) (if i =? 0 then bias_block j else None).

  (** The input read at offset [t] of the window of output [o] of block [s]. *)
  Definition read_point (s o t : list Z) : list Z :=
    vec nk (fun k => nth k (w_stride w) 0 * (start1 (nth k S 0) (nth k s 0) (nth k ys 0) + nth k o 0)
                     - nth k (w_padding w) 0 + nth k (w_dilation w) 0 * nth k t 0).
  Definition part_shape (j : Z) (s : list Z) : list Z :=
    b :: subshape1 co j cout :: vec nk (fun k => subshape1 (nth k S 0) (nth k s 0) (nth k ys 0)).
  Definition part_out (j i : Z) (s : list Z) : tensor R :=
    mkt (part_shape j s) (fun q => match q with
      | b' :: c' :: o => part_kernel j i (subshape1 ci i cin) c'
                           (fun ch t => value_at X rzero (b' :: start1 ci i cin + ch :: read_point s o t))
      | _ => rzero
      end).

  Hypothesis Hco : 0 < co <= cout.
  Hypothesis Hci : 0 < ci <= cin.
  Hypothesis Hw : window_ok nk w.
  Hypothesis Hg : 0 < groups.
  Hypothesis Hgo : (groups | cout).
  Hypothesis Hgi : (groups | cin).
  Hypothesis Hgr : groups = 1 \/ (co = 1 /\ ci = 1).
  Hypothesis HW : tshape W = cout :: cin / groups :: w_kernel w.
  Hypothesis HBs : match bias with Some v => tshape v = [cout] | None => True end.

  Lemma weight_block_shape j i : 0 <= j < co -> 0 <= i < ci ->
    tshape (weight_block j i) = subshape1 co j cout :: subshape1 ci i (cin / groups) :: w_kernel w.
  Proof.
    intros Hj Hi. unfold weight_block. cbn [block tshape]. rewrite HW, !bal_shape_cons by auto. do 2 f_equal. apply ones_shape.
  Qed.
  Lemma weight_block_at j i c k t : 0 <= j < co -> 0 <= i < ci -> length t = nk ->
    tat (weight_block j i) (c :: k :: t) = tat W (start1 co j cout + c :: start1 ci i (cin / groups) + k :: t).
  Proof.
    intros Hj Hi Ht. unfold weight_block. cbn [block tat]. rewrite HW, !bal_lo_cons by lia. unfold nk. rewrite ones_lo.
    unfold vadd. cbn [map2]. do 3 f_equal. now apply zeros_vadd.
  Qed.

  (** The number of input channels per group of a worker's layer. *)
  Lemma local_groups i : 0 <= i < ci -> subshape1 ci i cin / groups = subshape1 ci i (cin / groups).
  Proof.
    intros Hi. destruct Hgr as [->|[_ E]]; [now rewrite !Z.div_1_r|]. rewrite E in *. assert (i = 0) by lia. subst i. now rewrite !unit_sub.
  Qed.

  Lemma local_cin i : 0 <= i < ci -> subshape1 ci i cin = groups * subshape1 ci i (cin / groups).
  Proof.
    intros Hi. destruct Hgi as [q E]. rewrite E. rewrite Z.div_mul by lia. destruct Hgr as [->|[_ E']].
    - rewrite Z.mul_1_r. lia.
    - rewrite E' in *. assert (i = 0) by lia. subst i. rewrite !unit_sub. lia.
  Qed.

  Lemma local_cout j : 0 <= j < co -> 0 < subshape1 co j cout /\ (groups | subshape1 co j cout).
  Proof.
    intros Hj. split; [apply subshape1_pos; lia|]. destruct Hgr as [->|[E _]]; [apply Z.divide_1_l|].
    rewrite E in *. assert (j = 0) by lia. subst j. now rewrite unit_sub.
  Qed.

  Lemma part_local j i : 0 <= j < co -> kernel_local w (part_kernel j i) (fun _ => subshape1 co j cout).
  Proof. intros Hj. destruct (local_cout j Hj). now apply conv_local. Qed.

  (** The worker's parameters: any tensors equal to the blocks. *)
  Lemma part_params j i (wt : tensor R) (bt : option (tensor R)) c' g : 0 <= j < co -> 0 <= i < ci ->
    teq wt (weight_block j i) ->
    match (if i =? 0 then bias_block j else None), bt with
    | Some v, Some v' => teq v' v
    | None, None => True
    | _, _ => False
    end -> 0 <= c' < subshape1 co j cout ->
    conv_kernel w (nth 0 (tshape wt) 0) groups wt bt (subshape1 ci i cin) c' g = part_kernel j i (subshape1 ci i cin) c' g.
  Proof.
    intros Hj Hi Ew Eb Hc. unfold part_kernel. pose proof (weight_block_shape j i Hj Hi) as Es.
    assert (E0 : nth 0 (tshape wt) 0 = subshape1 co j cout) by (destruct Ew as [E _]; rewrite E, Es; reflexivity).
    rewrite E0. apply conv_teq; auto.
    - rewrite local_groups by auto. exact Es.
    - destruct (i =? 0); [|destruct bt; auto; contradiction]. unfold bias_block in *. destruct bias as [v|], bt as [v'|]; auto; try contradiction.
      split; [exact Eb|]. cbn [block tshape]. unfold balanced, block_shape. cbn [map2]. now rewrite balanced1_nth.
  Qed.

  (** ** Their sum is the block of the sequential output *)

  Variable Y : tensor R.
  Variable xs : list Z.
  Hypothesis HX : tshape X = b :: cin :: xs.
  Hypothesis Hxs : length xs = nk.
  Hypothesis HYs : tshape Y = b :: cout :: ys.
  Hypothesis HY : is_sequential (conv_kernel w cout groups W bias) (fun _ => cout) rzero w X Y.
  Hypothesis HS : pos_shape S.
  Hypothesis HSl : length S = nk.

  Lemma seq_parts : counts xs w ys /\ 0 < b /\ 0 < cin /\ Forall (fun n => 0 < n) ys /\ length ys = nk /\
    forall b' c' o, valid_index (tshape Y) (b' :: c' :: o) ->
        tat Y (b' :: c' :: o) = conv_kernel w cout groups W bias cin c'
          (fun ch t => value_at X rzero (b' :: ch ::
             vec nk (fun j => nth j (w_stride w) 0 * nth j o 0 - nth j (w_padding w) 0 + nth j (w_dilation w) 0 * nth j t 0))).
  Proof.
    destruct HY as (b0 & c & xs' & ys' & EX & EY & Hc & Hb & Hc0 & Hys & V). rewrite HYs in EY. rewrite HX in EX.
    inversion EX; subst b0 c xs'. inversion EY; subst ys'. repeat (split; [auto; fail|]).
    split; [destruct Hc; congruence|]. rewrite <- Hxs. exact V.
  Qed.

  Lemma part_block_shape j s : 0 <= j < co -> valid_index S s ->
    part_shape j s = block_shape (balanced (tshape Y) (1 :: co :: S)) (0 :: j :: s).
  Proof.
    intros Hj Hs. destruct seq_parts as (_ & _ & _ & _ & Ly & _). unfold part_shape. rewrite HYs, !bal_shape_cons by lia.
    rewrite unit_sub. do 2 f_equal. clear - Ly HSl Hs HS. unfold nk in *. clear nk. rewrite <- HSl in *. clear HSl. revert ys Ly s Hs HS.
    induction S as [|n S' IH]; intros [|y ys'] Ly s Hs Hp; try discriminate; [apply valid_index_nil in Hs; now subst|].
    apply valid_index_cons_inv in Hs as (i & s' & -> & Hi & Hs). inversion Hp; subst. injection Ly as Ly.
    rewrite bal_shape_cons by auto. cbn [length]. unfold vec. cbn [seq map nth]. f_equal.
    rewrite <- seq_shift, map_map. rewrite <- IH by auto. reflexivity.
  Qed.

  Lemma part_block_lo s o : valid_index S s -> length o = nk ->
    vadd (block_lo (balanced ys S) s) o = vec nk (fun k => start1 (nth k S 0) (nth k s 0) (nth k ys 0) + nth k o 0).
  Proof.
    intros Hs Ho. destruct seq_parts as (_ & _ & _ & _ & Ly & _). clear - Ly HSl Hs HS Ho. unfold nk in *. clear nk.
    rewrite <- HSl in *. clear HSl. revert ys Ly s Hs HS o Ho.
    induction S as [|n S' IH]; intros [|y ys'] Ly s Hs Hp o Ho; try discriminate; [apply valid_index_nil in Hs; now subst|].
    apply valid_index_cons_inv in Hs as (i & s' & -> & Hi & Hs). inversion Hp; subst. injection Ly as Ly.
    destruct o as [|o0 o]; [discriminate|]. injection Ho as Ho.
    rewrite bal_lo_cons by auto. unfold vadd. cbn [length map2]. unfold vec. cbn [seq map nth]. f_equal.
    rewrite <- seq_shift, map_map. change (map2 Z.add (block_lo (balanced ys' S') s') o) with (vadd (block_lo (balanced ys' S') s') o).
    rewrite IH by auto. reflexivity.
  Qed.

  Lemma parts_sum j s q : 0 <= j < co -> valid_index S s -> valid_index (part_shape j s) q ->
    sumf (zrange ci) (fun i => tat (part_out j i s) q) = tat (block (balanced (tshape Y) (1 :: co :: S)) (0 :: j :: s) Y) q.
  Proof.
    intros Hj Hs Hq. destruct seq_parts as (_ & Hb & _ & Hys & Ly & V).
    assert (Hq' : valid_index (tshape Y) (vadd (block_lo (balanced (tshape Y) (1 :: co :: S)) (0 :: j :: s)) q)).
    { apply bal_valid.
      - rewrite HYs. constructor; [lia|]. constructor; [lia|]. eapply Forall_impl; [|exact Hys]. cbn. lia.
      - rewrite HYs. cbn [length]. lia.
      - constructor; [lia|]. constructor; [lia|auto].
      - repeat (apply valid_index_cons; split; [lia|]). auto.
      - now rewrite <- part_block_shape. }
    cbn [block tat]. rewrite HYs in Hq' |- *. rewrite !bal_lo_cons in Hq' |- * by lia. rewrite start1_0 in Hq' |- * by lia.
    apply valid_index_cons_inv in Hq as (b' & q1 & -> & Hb' & Hq).
    apply valid_index_cons_inv in Hq as (c' & o & -> & Hc' & Ho). pose proof (valid_index_length _ _ Ho) as Lo. rewrite vec_length in Lo.
    unfold vadd in Hq' |- *. cbn [map2] in Hq' |- *. rewrite Z.add_0_l in Hq' |- *.
    change (map2 Z.add (block_lo (balanced ys S) s) o) with (vadd (block_lo (balanced ys S) s) o) in Hq' |- *.
    rewrite part_block_lo in Hq' |- * by auto. rewrite <- HYs in Hq'. rewrite V by exact Hq'. clear Hq' V.
    set (F := fun ch t => value_at X rzero (b' :: ch :: read_point s o t)).
    assert (EF : conv_kernel w cout groups W bias cin (start1 co j cout + c')
              (fun ch t => value_at X rzero (b' :: ch :: vec nk (fun k => nth k (w_stride w) 0 *
                  nth k (vec nk (fun k => start1 (nth k S 0) (nth k s 0) (nth k ys 0) + nth k o 0)) 0
                  - nth k (w_padding w) 0 + nth k (w_dilation w) 0 * nth k t 0))) =
              conv_kernel w cout groups W bias cin (start1 co j cout + c') F).
    { apply (conv_local w cout groups ltac:(lia) Hg Hgo W bias cin).
      - intros ch t _ _. unfold F. f_equal. do 2 f_equal. unfold read_point, vec. apply map_ext_in. intros k Hk. apply in_seq in Hk.
        change (map (fun i => start1 (nth i S 0) (nth i s 0) (nth i ys 0) + nth i o 0) (seq 0 nk))
          with (vec nk (fun i => start1 (nth i S 0) (nth i s 0) (nth i ys 0) + nth i o 0)). rewrite vec_nth by lia. lia.
      - pose proof (start1_sub_le co j cout ltac:(lia) ltac:(lia) Hj). lia. }
    rewrite EF. clear EF. cbn [part_out tat].
    change (sumf (zrange ci) (fun i => part_kernel j i (subshape1 ci i cin) c' (fun ch t => F (start1 ci i cin + ch) t)) =
            conv_kernel w cout groups W bias cin (start1 co j cout + c') F). clearbody F.
    unfold part_kernel, conv_kernel. rewrite sumf_add. f_equal.
    - destruct Hgr as [E|[E1 E2]].
      + rewrite E, !Z.div_1_r. rewrite (Z.div_small (start1 co j cout + c') cout)
          by (pose proof (start1_sub_le co j cout ltac:(lia) ltac:(lia) Hj); lia).
        rewrite Z.mul_0_l. rewrite <- (balanced_sum ci cin) by lia. apply sumf_ext. intros i Hi. apply in_zrange in Hi.
        rewrite !Z.div_1_r. rewrite (Z.div_small c' (subshape1 co j cout)) by lia. rewrite Z.mul_0_l.
        apply sumf_ext. intros k Hk. apply sumf_ext. intros t Ht. apply in_indices in Ht. apply valid_index_length in Ht.
        rewrite weight_block_at by auto. rewrite E, Z.div_1_r. f_equal.
      + assert (Ez : zrange ci = [0]) by now rewrite E2. rewrite Ez, sumf_cons, sumf_nil, radd_0_r. clear Ez. assert (j = 0) by lia. subst j.
        rewrite E1, E2, !unit_sub, !start1_0 by lia. rewrite Z.add_0_l.
        apply sumf_ext. intros k Hk. apply sumf_ext. intros t Ht. apply in_indices in Ht. apply valid_index_length in Ht.
        rewrite weight_block_at by lia. rewrite E1, E2, !start1_0 by lia. f_equal.
    - rewrite (sumf_single (zrange ci) _ 0).
      + rewrite Z.eqb_refl. unfold bias_block. destruct bias as [v|]; auto. cbn [block tat]. f_equal.
        unfold block_lo, balanced, vadd. cbn [map2]. now rewrite balanced1_prefix by lia.
      + apply zrange_nodup.
      + apply in_zrange. lia.
      + intros i Hi Hne. destruct (Z.eqb_spec i 0); [congruence|reflexivity].
  Qed.

  Lemma part_nonneg j i s : 0 <= j < co -> valid_index S s -> nonneg_shape (tshape (part_out j i s)) /\ tshape (part_out j i s) <> [].
  Proof.
    intros Hj Hs. destruct seq_parts as (_ & Hb & _ & Hys & Ly & _). split; [|discriminate]. cbn [part_out tshape].
    unfold part_shape. constructor; [lia|]. constructor; [apply subshape1_nonneg; lia|]. apply Forall_forall. intros z Hz.
    unfold vec in Hz. apply in_map_iff in Hz as (k & <- & Hk). apply in_seq in Hk. apply subshape1_nonneg.
    - rewrite <- HSl in Hk. unfold pos_shape in HS. rewrite Forall_forall in HS. apply HS, nth_In. lia.
    - rewrite Forall_forall in Hys. assert (0 < nth k ys 0); [|lia]. apply Hys, nth_In. lia.
  Qed.
End Parts.
