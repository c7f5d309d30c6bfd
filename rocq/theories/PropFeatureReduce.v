(** C78: the gradients of convolutions over distributed features in machine arithmetic. *)

From Coq Require Import Sorting.Permutation.
From Verif Require Import Prelude SpecIndex SpecLayout SpecPartition SpecHalo SpecSum ModelSlicing ModelDecomposition
  ModelPartition ProofSlicing ProofDecomposition ProofPartition PropPartition Ring Tensor ModelCollectives ProofCollectives PropCollectives
  Blocks ModelUtilities P2P Rounds Schedule ModelRepartition ProofRepartition PropRepartition ModelHaloMixin ProofHaloMixin
  PropHaloMixin ModelHaloExchange PropHaloExchange ModelFeatureLayer SpecFeature ProofFeatureLayer
  PropFeatureLayer PropFeatureConv PropFeatureCommon ModelConv ProofConv ProofConvParts PropLinear PropConv
  PropConvGeneral ModelGradients ProofGradients ModelFeatureGrad SpecFeatureGrad PropFeatureGrad
  PropConvGrad ModelReduce ProofReduce PropReduce SpecConvSum ModelConvReduce ProofConvReduce PropConvReduce SpecConvGradSum
  PropConvGradReduce ProofTransfer ProofHaloLinks ModelHaloReduce ProofHaloForward PropHaloReduce ModelFeatureReduce ProofFeatureReduce.

(** Every execution of the halo layer ends, whatever its addition. *)
Definition halo_safe_by {R : CRing} (M : machine R) (world : list Z) (P : part) (shape : Z -> list Z) (recv send : Z -> list (Z * Z)) : Prop :=
  forall (calls : list (@call R)) (init : Z -> @hst R) eager,
    let prog := rounds_prog (history_rounds_by P shape recv send (m_add M) calls) in
    (exists N, forall n g, run world prog init eager n g -> (n <= N)%nat) /\
    (forall n g, run world prog init eager n g -> ~ done world prog g -> exists g', step world prog eager g g').

Section Gradients.
  Context {R : CRing}.
  Variables (M : machine R) (red : Z -> list Z -> list R -> list Z -> R).
  Variables back_x back_w back_b : Z -> bool -> tensor R -> tensor R -> tensor R -> result (tensor R).
  Variables (P : part) (L : layout) (w : window) (cin cout groups : Z) (use_bias : bool) (dt : Z -> Z) (rg : Z -> bool).
  Variables (weight bias : Z -> tensor R) (X dY : tensor R) (b : Z) (xs ys : list Z) (x dy : Z -> tensor R).

  (** The inputs' gradients are the blocks of one tensor, each of whose entries is a sum
      of exactly the products of the sequential layer's gradient, each once; so are the
      gradients of the root's weight and bias (for the weight, products with padding may
      be missing). *)
  Definition feature_gradients_by (exchanged back : Z -> tensor R) : Prop :=
    let root := hd 0 (p_ranks P) in
    (exists dX, conv_input_gradient_by M w groups cin cout (weight root) dY b xs ys dX /\
       forall idx v, worker_at P idx v ->
         exists t, conv_gradient_by back_x P w weight x dy back v = Ok t /\ teq t (block L idx dX)) /\
    (exists dW, conv_weight_gradient_of red back_w P w dt rg weight x exchanged dy root = Ok dW /\
       conv_weight_gradient_by M w groups cin cout X dY b ys dW) /\
    (use_bias = true -> exists db, conv_bias_gradient_of red back_b P w dt rg weight bias x exchanged dy root = Ok db /\
       conv_bias_gradient_by M cout dY b ys db) /\
    (forall v, ~ In v (p_ranks P) -> conv_gradient_by back_x P w weight x dy back v = Ok (dy v)).
End Gradients.

Definition C78_statement : Prop :=
  forall (R : CRing) (M : machine R) red back_x back_w back_b (world : list Z) (P : part) (L : layout) (w : window)
    (cin cout groups : Z) (use_bias : bool) (dt : Z -> Z) (rg : Z -> bool) (weight bias : Z -> tensor R) (X dY : tensor R)
    (b : Z) (xs ys : list Z) (x dy : Z -> tensor R),
    adds M red -> torch_conv_back_by M w groups back_x back_w back_b ->
    feature_given world P L w -> nth 1 (p_shape P) 0 = 1 ->
    conv_parameters P w cin cout groups use_bias weight bias ->
    conv_arguments w groups cin cout X (weight (hd 0 (p_ranks P))) None b xs ys ->
    holds_blocks P L X x -> ((1 < length (p_ranks P))%nat -> within L w (b :: cin :: ys)) ->
    tshape dY = b :: cout :: ys -> holds_blocks P (balanced (b :: cout :: ys) (p_shape P)) dY dy ->
    let shape v := tshape (x v) in
    let arg := halo_argument P w rzero shape x in
    let plan := halo_plan P w shape in
    let layer := history_rounds_by P (fun v => tshape (arg v)) (fun v => u_recv (plan v)) (fun v => u_send (plan v)) (m_add M) in
    let ok := feature_gradients_by M red back_x back_w back_b P L w cin cout groups use_bias dt rg weight bias X dY b xs ys x dy in
    (* a single worker has no halo layer *)
    (length (p_ranks P) = 1%nat -> forall exchanged back, ok exchanged back) /\
    ((1 < length (p_ranks P))%nat ->
       (forall v, In v world -> halo_input P w rzero shape x v = Ok (arg v)) /\
       halo_safe_by M world P (fun v => tshape (arg v)) (fun v => u_recv (plan v)) (fun v => u_send (plan v)) /\
       forall pre init eager gf,
         same_calls P arg pre -> ends world (layer (pre ++ [HForward arg])) init eager gf ->
         let back := conv_back_argument_by back_x P w dt rg weight x (halo_result gf) dy in
         (forall v, In v world -> conv_cotangent_by back_x P w dt rg weight x (halo_result gf) dy v = Ok (back v)) /\
         forall pre' init' eager' gb,
           same_calls P arg pre' -> ends world (layer (pre' ++ [HBackward back])) init' eager' gb ->
           ok (halo_result gf) (halo_result gb)).

(** ** Proofs *)

Section Several.
  Context {R : CRing}.
  Variables (M : machine R) (red : Z -> list Z -> list R -> list Z -> R).
  Variables back_x back_w back_b : Z -> bool -> tensor R -> tensor R -> tensor R -> result (tensor R).
  Variables (world : list Z) (P : part) (L : layout) (w : window) (cin cout groups : Z) (use_bias : bool).
  Variables (dt : Z -> Z) (rg : Z -> bool) (weight bias : Z -> tensor R) (X dY : tensor R).
  Variables (b : Z) (xs ys : list Z) (x dy : Z -> tensor R).
  Hypothesis HM : adds M red.
  Hypothesis HT : torch_conv_back_by M w groups back_x back_w back_b.
  Hypothesis HG : feature_given world P L w.
  Hypothesis H1 : nth 1 (p_shape P) 0 = 1.
  Hypothesis HW : conv_parameters P w cin cout groups use_bias weight bias.
  Let root := hd 0 (p_ranks P).
  Hypothesis HA : conv_arguments w groups cin cout X (weight root) None b xs ys.
  Hypothesis HB : holds_blocks P L X x.
  Hypothesis Hmany : (1 < length (p_ranks P))%nat.
  Hypothesis Hin : within L w (b :: cin :: ys).
  Hypothesis ED : tshape dY = b :: cout :: ys.
  Hypothesis HD : holds_blocks P (balanced (b :: cout :: ys) (p_shape P)) dY dy.
  Let shape v := tshape (x v).
  Let arg := halo_argument P w rzero shape x.
  Let plan := halo_plan P w shape.
  Let layer := history_rounds_by P (fun v => tshape (arg v)) (fun v => u_recv (plan v)) (fun v => u_send (plan v)) (m_add M).
  Let ny := b :: cin :: ys.
  Let Lp := pad_layout L (0 :: 0 :: w_padding w).
  Let H := feature_halos L w.
  Let Ly := balanced (b :: cout :: ys) (p_shape P).
  Let wcopy := copy P dt rg weight.

  Lemma sr_shapes idx v : worker_at P idx v -> tshape (x v) = block_shape L idx.
  Proof. intros Hv. destruct HB as [_ B]. apply (B idx v Hv). Qed.
  Lemma sr_EL : layout_shape L = b :: cin :: xs.
  Proof. destruct HB as [E _], HA as (_ & _ & _ & _ & _ & _ & E' & _). congruence. Qed.
  Lemma sr_copy v : In v (p_ranks P) -> conv_parameter P dt rg weight v = Ok (wcopy v) /\ teq (wcopy v) (weight root).
  Proof.
    intros Hv. exact (copy_ok world P L w cout groups use_bias dt rg weight bias HG cin HW v Hv).
  Qed.
  Lemma sr_many : Nat.eqb (length (p_ranks P)) 1 = false.
  Proof. apply Nat.eqb_neq. lia. Qed.
  Lemma sr_facts : 0 < groups /\ (groups | cin) /\ (groups | cout) /\ 0 < cin /\ 0 < cout /\ 0 < b /\ tshape X = b :: cin :: xs /\
    counts xs w ys /\ Forall (fun n => 0 < n) ys /\ tshape (weight root) = cout :: cin / groups :: w_kernel w.
  Proof. destruct HA as (A1 & A2 & A3 & A4 & A5 & A6 & A7 & A8 & A9 & A10 & A11 & A12 & _). repeat (split; [assumption|]). assumption. Qed.

  Section Runs.
    Variables (pre : list (@call R)) (init : Z -> @hst R) (eager : Z -> Z -> Z -> nat -> bool) (gf : @gst (@hst R) (tensor R)).
    Hypothesis Hp : same_calls P arg pre.
    Hypothesis Hf : ends world (layer (pre ++ [HForward arg])) init eager gf.
    Let exchanged := halo_result gf.
    Let back := conv_back_argument_by back_x P w dt rg weight x exchanged dy.
    Let seen idx v := slice_tensor (exchanged v) (needed_of L w idx).

    (** The values that the forward pass left, as in the ring. *)
    Lemma sr_forward : exists g, ends world (history_rounds P (fun v => tshape (arg v)) (fun v => u_recv (plan v)) (fun v => u_send (plan v)) (pre ++ [HForward arg])) init eager g /\
      forall v, In v (p_ranks P) -> steq (exchanged v) (halo_result g v).
    Proof.
      pose proof (ow_planned world P L w HG ny x sr_shapes) as HPl. pose proof (fg_given world P L w HG shape sr_shapes) as HH.
      destruct (forward_after (m_add M) world P Lp H _ _ _ HH HPl pre arg init eager gf Hf) as (g & Hg & E). exists g. split; [exact Hg|].
      intros v Hv. apply E. destruct HH as (_ & HH & _). now apply HH.
    Qed.

    Lemma sr_exchanged idx v : worker_at P idx v -> tshape (exchanged v) = padded_shape Lp H idx.
    Proof.
      intros Hv. destruct sr_facts as (A1 & A2 & A3 & A4 & A5 & A6 & A7 & A8 & A9 & A10). destruct sr_forward as (g & Hg & E).
      rewrite (proj1 (E v (worker_at_In _ _ _ Hv))).
      exact (exchanged_shape world P L w rzero X x HG b cin xs ys A7 A8 A6 A4 A9 HB Hin _ _ _ pre init eager g idx v
        (ow_planned world P L w HG ny x sr_shapes) (ow_calls world P L w HG ny x sr_shapes pre Hp) Hg Hv).
    Qed.
    Lemma sr_seen idx v : worker_at P idx v -> tshape (seen idx v) = compute_nd_slice_shape (slice_of L w idx) /\
      forall b' ch o t, 0 <= b' < rows P b idx -> 0 <= ch < cin -> valid_index (extents P w ys idx) o -> valid_index (w_kernel w) t ->
        valid_index (tshape (seen idx v)) (b' :: ch :: window_point w o t) /\
        tat (seen idx v) (b' :: ch :: window_point w o t) = value_at X rzero (window_read P w b cin ys idx b' ch o t).
    Proof.
      intros Hv. destruct sr_facts as (A1 & A2 & A3 & A4 & A5 & A6 & A7 & A8 & A9 & A10). destruct sr_forward as (g & Hg & E).
      specialize (E v (worker_at_In _ _ _ Hv)).
      assert (Es : steq (seen idx v) (general_input w P shape x (halo_result g) v)).
      { unfold general_input, seen. rewrite (fg_setup world P L w HG shape sr_shapes idx v Hv). cbn [u_needed]. unfold slice_tensor.
        rewrite (proj1 E). now apply read_proper. }
      split.
      - unfold seen, slice_tensor. rewrite (sr_exchanged idx v Hv). reflexivity.
      - destruct (needed_windows world P L w rzero X x HG b cin xs ys A7 A8 A6 A4 A9 HB Hin pre init eager g idx v Hp Hg Hv)
          as (es & _ & _ & _ & _ & K). intros b' ch o t Hb' Hch Ho Ht.
        rewrite (proj1 Es), (proj2 Es). apply (K b' ch o t); auto. cbv beta. rewrite H1.
        assert (E1 : nth 1 idx 0 = 0).
        { destruct Hv as [Hi _]. apply valid_index_nth in Hi as [_ Hi]. specialize (Hi 1%nat ltac:(rewrite (lc_dims world P L w HG); lia)). rewrite H1 in Hi. lia. }
        now rewrite E1, unit_sub.
    Qed.

    (** torch's gradients on a worker. *)
    Lemma sr_torch idx v : worker_at P idx v ->
      (exists d, back_x v false (wcopy v) (seen idx v) (dy v) = Ok d /\ tshape d = compute_nd_slice_shape (slice_of L w idx) /\
         forall b' ch q', valid_index (tshape d) (b' :: ch :: q') ->
           evaluates M (input_terms (bare w) groups cin cout (wcopy v) (dy v) (extents P w ys idx) b' ch q') (tat d (b' :: ch :: q'))) /\
      (exists d, back_w v false (wcopy v) (seen idx v) (dy v) = Ok d /\
         conv_weight_gradient_by M (bare w) groups cin cout (seen idx v) (dy v) (rows P b idx) (extents P w ys idx) d) /\
      (exists d, back_b v false (wcopy v) (seen idx v) (dy v) = Ok d /\
         conv_bias_gradient_by M cout (dy v) (rows P b idx) (extents P w ys idx) d).
    Proof.
      intros Hv. destruct sr_facts as (A1 & A2 & A3 & A4 & A5 & A6 & A7 & A8 & A9 & A10). pose proof (worker_at_In _ _ _ Hv) as Hr.
      destruct (sr_copy v Hr) as [_ [Sw _]]. destruct HD as [_ HD']. destruct (HD' idx v Hv) as [Sd _]. destruct (sr_seen idx v Hv) as [Ss _].
      destruct (lc_local world P L w groups cin cout HG H1 b xs ys sr_EL A8 A6 A4 A5 A9 Hin idx (seen idx v) (wcopy v) (dy v) (proj1 Hv) A1 A2 A3 Ss
        (eq_trans Sw A10) Sd) as (es & Ha & Hd & Ht).
      destruct (HT v false cin cout (seen idx v) (wcopy v) (rows P b idx) es (extents P w ys idx) (dy v) Ha Hd) as ((dX & B1 & B2 & B3) & (dW & C1 & C2) & (db & D1 & D2)).
      split; [|split; eauto]. exists dX. split; [exact B1|]. split; [congruence|exact B3].
    Qed.

    Lemma sr_cotangent idx v : worker_at P idx v ->
      exists d, back_x v false (wcopy v) (seen idx v) (dy v) = Ok d /\
        conv_cotangent_by back_x P w dt rg weight x exchanged dy v = Ok (slice_backward (padded_shape Lp H idx) (slice_of L w idx) d).
    Proof.
      intros Hv. destruct (sr_torch idx v Hv) as ((d & E & _) & _). pose proof (worker_at_In _ _ _ Hv) as Hr. exists d. split; [exact E|].
      unfold conv_cotangent_by. rewrite (proj2 (is_active_spec _ _) Hr), sr_many. cbn [negb]. rewrite (proj1 (sr_copy v Hr)). cbn [rbind].
      pose proof (fg_setup world P L w HG shape sr_shapes idx v Hv) as Ef. unfold shape in Ef. rewrite Ef. cbn [rbind u_needed].
      change (slice_tensor (exchanged v) (needed_of L w idx)) with (seen idx v). rewrite E. cbn [rbind]. rewrite (sr_exchanged idx v Hv). reflexivity.
    Qed.
    Lemma sr_inactive v : ~ In v (p_ranks P) -> conv_cotangent_by back_x P w dt rg weight x exchanged dy v = Ok (dy v).
    Proof. intros Hv. unfold conv_cotangent_by. apply is_active_false in Hv. now rewrite Hv. Qed.

    Lemma sr_start v : In v world -> conv_cotangent_by back_x P w dt rg weight x exchanged dy v = Ok (back v).
    Proof.
      intros _. unfold back, conv_back_argument_by. destruct (in_dec Z.eq_dec v (p_ranks P)) as [Hr|Hr].
      - destruct (worker_at_exists P v) as [idx Hi]; [apply HG|auto|]. destruct (sr_cotangent idx v Hi) as (d & _ & ->). reflexivity.
      - now rewrite sr_inactive.
    Qed.

    Lemma sr_back idx v : worker_at P idx v -> tshape (back v) = padded_shape Lp H idx /\
      forall q, evaluates M (map (key_term (weight root) dY) (local_keys P L w groups cin cout b ys idx q)) (tat (back v) q).
    Proof.
      intros Hv. destruct sr_facts as (A1 & A2 & A3 & A4 & A5 & A6 & A7 & A8 & A9 & A10). pose proof (worker_at_In _ _ _ Hv) as Hr.
      destruct (sr_cotangent idx v Hv) as (d & Ed & Eb). unfold back, conv_back_argument_by. rewrite Eb.
      destruct (sr_torch idx v Hv) as ((d' & Ed' & Sd & Vd) & _). assert (d' = d) by congruence. subst d'. split.
      - unfold slice_backward, write_slice. destruct (zlist_eqb _ _); reflexivity.
      - intros q. destruct HD as [_ HD']. exact (lc_cotangent world P L w groups cin cout HG H1 b xs ys sr_EL A8 A6 A4 A9 Hin M (weight root) dY idx (wcopy v) (dy v) d q
          (proj1 Hv) A10 (proj2 (sr_copy v Hr)) (HD' idx v Hv) Sd Vd).
    Qed.

    (** The backward of a parameter's broadcast. *)
    Lemma sr_broadcast (param grads : Z -> tensor R) s :
      (forall v, In v (p_ranks P) -> nonneg_shape (tshape (param v))) -> tshape (param root) = s ->
      (forall v, In v (p_ranks P) -> tshape (grads v) = s) ->
      exists t, broadcast_layer_backward_by red (weight_part P) P false false false false dt rg param grads root = Ok t /\ tshape t = s /\
        forall i, evaluates M (map (fun v => Num (tat (grads v) i)) (p_ranks P)) (tat t i).
    Proof.
      intros Hn Es Eg. pose proof (root_in world P L w HG) as Hroot. fold root in Hroot.
      pose proof (weight_accepted world P L w HG) as HAc. pose proof HAc as (B1 & B2 & B3 & B4 & _).
      pose proof (broadcast_cross_wf (weight_part P) P false false B1 B2 B3 B4) as CW.
      assert (Esrc : forall d, In d (p_ranks P) -> csrc (weight_part P) P false false d = root).
      { intros d Hd. destruct (csrc_spec (weight_part P) P false false B1 B2 B4 d Hd) as [[E|[]] _]. symmetry. exact E. }
      destruct (broadcast_source_by M red HM (weight_part P) P false false false false dt rg param grads root HAc) as (t & E & S & V).
      - intros v Hv. split; [|discriminate]. apply Hn. destruct Hv as [[<-|[]]|Hv]; auto.
      - intros v Hv. split; [|discriminate]. rewrite Eg; [|destruct Hv as [[<-|[]]|Hv]; auto]. rewrite <- Es. apply Hn; auto.
      - intros d Hd. rewrite (Esrc d Hd), Es. auto.
      - now left.
      - exists t. split; [exact E|]. split; [congruence|]. intros i. specialize (V i). unfold nums in V.
        assert (Q : forall l, (forall d, In d l -> csrc (weight_part P) P false false d = root) -> filter (fun d => csrc (weight_part P) P false false d =? root) l = l).
        { induction l as [|d l IH]; intros Hl; auto. cbn [filter]. rewrite Hl by (now left). rewrite Z.eqb_refl. f_equal. apply IH. intros; apply Hl; now right. }
        rewrite (Q _ Esrc) in V. exact V.
    Qed.

    Lemma sr_local idx v (bk : Z -> bool -> tensor R -> tensor R -> tensor R -> result (tensor R)) : worker_at P idx v ->
      conv_local_grad_by P w dt rg weight x exchanged dy bk v = bk v false (wcopy v) (seen idx v) (dy v).
    Proof.
      intros Hv. pose proof (worker_at_In _ _ _ Hv) as Hr. unfold conv_local_grad_by. rewrite (proj1 (sr_copy v Hr)). cbn [rbind].
      pose proof (fg_setup world P L w HG shape sr_shapes idx v Hv) as Ef. unfold shape in Ef. rewrite Ef. reflexivity.
    Qed.

    Lemma sr_weight : exists dW, conv_weight_gradient_of red back_w P w dt rg weight x exchanged dy root = Ok dW /\
      conv_weight_gradient_by M w groups cin cout X dY b ys dW.
    Proof.
      destruct sr_facts as (A1 & A2 & A3 & A4 & A5 & A6 & A7 & A8 & A9 & A10). assert (HPo : part_ok P) by apply HG.
      unfold conv_weight_gradient_of, conv_parameter_gradient_by. rewrite sr_many.
      set (grads := fun u => match conv_local_grad_by P w dt rg weight x exchanged dy back_w u with Ok t => t | Raise _ => dy u end).
      assert (Eg : forall idx v, worker_at P idx v -> conv_weight_gradient_by M (bare w) groups cin cout (seen idx v) (dy v) (rows P b idx) (extents P w ys idx) (grads v)).
      { intros idx v Hv. unfold grads. rewrite (sr_local idx v back_w Hv). destruct (sr_torch idx v Hv) as (_ & (d & -> & K) & _). exact K. }
      destruct (sr_broadcast weight grads (cout :: cin / groups :: w_kernel w)) as (t & E & S & V).
      - intros v Hv. destruct HW as (_ & _ & _ & _ & _ & _ & HW'). now apply HW'.
      - exact A10.
      - intros v Hv. destruct (worker_at_exists P v HPo Hv) as [idx Hi]. apply (Eg idx v Hi).
      - exists t. split; [exact E|]. split; [exact S|]. rewrite S. intros c k tt Hi.
        apply valid_index_cons in Hi as [Hc Hi]. apply valid_index_cons in Hi as [Hk Htt].
        apply (pm_weight_sum world P L w groups cin cout HG H1 b xs ys sr_EL A8 A6 A5 A9 M X dY (fun v => tat (grads v) (c :: k :: tt)) c k tt _ Hc); [|apply V].
        intros v idx Hv. destruct (Eg idx v Hv) as [Sg Vg]. destruct (sr_seen idx v Hv) as [_ Hw]. destruct HD as [_ HD'].
        apply (pm_weight world P L w groups cin cout HG H1 b xs ys sr_EL A8 M X dY A1 A2 A3 idx (seen idx v) (dy v) c k tt _ (proj1 Hv) Hc Hk Htt).
        + intros b' ch o Hb' Hch Ho. now apply Hw.
        + apply HD'. exact Hv.
        + apply Vg. rewrite Sg. apply valid_index_cons. split; [exact Hc|]. apply valid_index_cons. split; [exact Hk|exact Htt].
    Qed.

    Lemma sr_bias : use_bias = true -> exists db, conv_bias_gradient_of red back_b P w dt rg weight bias x exchanged dy root = Ok db /\
      conv_bias_gradient_by M cout dY b ys db.
    Proof.
      intros Hu. destruct sr_facts as (A1 & A2 & A3 & A4 & A5 & A6 & A7 & A8 & A9 & A10). assert (HPo : part_ok P) by apply HG.
      unfold conv_bias_gradient_of, conv_parameter_gradient_by. rewrite sr_many.
      set (grads := fun u => match conv_local_grad_by P w dt rg weight x exchanged dy back_b u with Ok t => t | Raise _ => dy u end).
      assert (Eg : forall idx v, worker_at P idx v -> conv_bias_gradient_by M cout (dy v) (rows P b idx) (extents P w ys idx) (grads v)).
      { intros idx v Hv. unfold grads. rewrite (sr_local idx v back_b Hv). destruct (sr_torch idx v Hv) as (_ & _ & (d & -> & K)). exact K. }
      pose proof HW as (_ & _ & _ & _ & _ & HWb & HWn).
      destruct (sr_broadcast bias grads [cout]) as (t & E & S & V).
      - intros v Hv. now apply HWn.
      - now apply HWb.
      - intros v Hv. destruct (worker_at_exists P v HPo Hv) as [idx Hi]. apply (Eg idx v Hi).
      - exists t. split; [exact E|]. split; [exact S|]. intros c Hc.
        apply (pm_bias_sum world P L w cin cout HG H1 b xs ys sr_EL A8 A6 A5 A9 M dY (fun v => tat (grads v) [c]) c _ Hc); [|apply V].
        intros v idx Hv. destruct (Eg idx v Hv) as [_ Vg]. destruct HD as [_ HD'].
        rewrite <- (pm_bias world P L w cin cout HG H1 b xs ys sr_EL A8 dY idx (dy v) c (proj1 Hv) Hc (HD' idx v Hv)). now apply Vg.
    Qed.

    Lemma sr_ok pre' init' eager' gb : same_calls P arg pre' -> ends world (layer (pre' ++ [HBackward back])) init' eager' gb ->
      feature_gradients_by M red back_x back_w back_b P L w cin cout groups use_bias dt rg weight bias X dY b xs ys x dy exchanged (halo_result gb).
    Proof.
      intros Hp' Hb'. destruct sr_facts as (A1 & A2 & A3 & A4 & A5 & A6 & A7 & A8 & A9 & A10).
      split; [|split; [exact sr_weight|split; [exact sr_bias|]]].
      - destruct (lc_input world P L w groups cin cout HG H1 b xs ys sr_EL A8 A6 A4 A5 A9 Hin A1 A3 M (weight root) dY x dy _ _ _ pre' back init' eager' gb
          sr_shapes (ow_planned world P L w HG ny x sr_shapes) (ow_calls world P L w HG ny x sr_shapes pre' Hp') Hb' sr_back) as (dX & K1 & K2).
        exists dX. split; [exact K1|]. intros idx v Hv. destruct (K2 idx v Hv) as (t & Et & Tt). exists t. split; [|exact Tt].
        unfold conv_gradient_by. rewrite (proj2 (is_active_spec _ _) (worker_at_In _ _ _ Hv)), sr_many. exact Et.
      - intros v Hv. unfold conv_gradient_by. apply is_active_false in Hv. now rewrite Hv.
    Qed.
  End Runs.
End Several.

Section Single.
  Context {R : CRing}.
  Variables (M : machine R) (w : window) (groups cin cout : Z) (X X' W dY dY' : tensor R) (b : Z) (xs ys : list Z).
  Hypothesis HX : teq X' X.
  Hypothesis HY : teq dY' dY.
  Hypothesis ED : tshape dY = b :: cout :: ys.

  Lemma si_value g : inside (tshape X') g = inside (tshape X) g /\ value_at X' rzero g = value_at X rzero g.
  Proof.
    destruct HX as [S V]. unfold value_at. rewrite S. split; [reflexivity|]. destruct (inside (tshape X) g) eqn:E; [|reflexivity].
    apply V. rewrite S. now apply inside_spec.
  Qed.
  Lemma si_dY b' c o : 0 <= b' < b -> 0 <= c < cout -> valid_index ys o -> tat dY' (b' :: c :: o) = tat dY (b' :: c :: o).
  Proof. intros. apply (proj2 HY). rewrite (proj1 HY), ED. do 2 (apply valid_index_cons; split; [assumption|]). assumption. Qed.

  Lemma si_input d : conv_input_gradient_by M w groups cin cout W dY' b xs ys d -> conv_input_gradient_by M w groups cin cout W dY b xs ys d.
  Proof.
    intros [S V]. split; [exact S|]. intros b' ch q Hq. specialize (V b' ch q Hq). rewrite input_terms_keys in *.
    erewrite map_ext_in; [exact V|]. intros k Hk. apply conv_keys_in in Hk as (_ & c & o & E & Hc & Ho).
    unfold key_term. rewrite E, si_dY; auto. rewrite S in Hq. now apply valid_index_cons in Hq as [Hq _].
  Qed.
  Lemma si_weight d : conv_weight_gradient_by M w groups cin cout X' dY' b ys d -> conv_weight_gradient_by M w groups cin cout X dY b ys d.
  Proof.
    intros [S V]. split; [exact S|]. intros c k t Hi. specialize (V c k t Hi). rewrite weight_terms_outs in *.
    rewrite S in Hi. apply valid_index_cons in Hi as [Hc _].
    erewrite map_ext_in; [exact V|]. intros y Hy. apply in_outs in Hy as (b' & o & -> & Hb & Ho). unfold weight_term. cbv zeta.
    rewrite si_dY by auto. now rewrite (proj1 (si_value _)), (proj2 (si_value _)).
  Qed.
  Lemma si_bias d : conv_bias_gradient_by M cout dY' b ys d -> conv_bias_gradient_by M cout dY b ys d.
  Proof.
    intros [S V]. split; [exact S|]. intros c Hc. specialize (V c Hc). rewrite bias_terms_outs in *.
    erewrite map_ext_in; [exact V|]. intros y Hy. apply in_outs in Hy as (b' & o & -> & Hb & Ho). now rewrite si_dY.
  Qed.
End Single.

Lemma C78_proof : C78_statement.
Proof.
  intros R M red back_x back_w back_b world P L w cin cout groups use_bias dt rg weight bias X dY b xs ys x dy HM HT HG H1 HW HA HB Hin ED HD.
  cbv zeta. split.
  - intros E1 exchanged back. assert (HPo : part_ok P) by apply HG.
    pose proof (root_in world P L w HG) as Hroot. destruct (worker_at_exists P _ HPo Hroot) as [idx0 Hv0].
    assert (Hones : Forall (fun n => n = 1) (p_shape P)).
    { destruct HPo as (_ & _ & Hp & HL). rewrite E1 in HL. clear - Hp HL. induction Hp as [|n l Hn Hp IH]; [constructor|].
      cbn [zprod fold_right] in HL. fold (zprod l) in HL. pose proof (zprod_pos _ Hp).
      assert (n = 1) by nia. subst n. constructor; auto. apply IH. lia. }
    assert (HLW : layout_workers L = p_shape P) by apply HG.
    assert (EL : layout_shape L = b :: cin :: xs).
    { destruct HB as [E _], HA as (_ & _ & _ & _ & _ & _ & E' & _). congruence. }
    pose proof HA as (A1 & A2 & A3 & A4 & A5 & A6 & A7 & _ & _ & A8 & A9 & A10 & _).
    assert (O2 : layout_workers (balanced (b :: cout :: ys) (p_shape P)) = p_shape P).
    { rewrite balanced_workers; auto; [apply HPo|]. cbn [length]. rewrite (lc_ys world P L w cin HG b xs ys EL A8), (lc_dims world P L w HG). reflexivity. }
    assert (One : forall idx, worker_at P idx (hd 0 (p_ranks P)) -> teq (x (hd 0 (p_ranks P))) X /\ teq (dy (hd 0 (p_ranks P))) dY).
    { intros idx Hv. destruct HB as [EL' HB'], HD as [EO HD']. split.
      - eapply teq_trans; [apply HB'; exact Hv|]. apply single_block; rewrite ?HLW; auto. apply Hv.
      - eapply teq_trans; [apply HD'; exact Hv|]. apply single_block; rewrite ?O2; auto. apply Hv. }
    destruct (One idx0 Hv0) as [Hx Hdy]. set (root := hd 0 (p_ranks P)) in *.
    assert (Eq1 : Nat.eqb (length (p_ranks P)) 1 = true) by (now apply Nat.eqb_eq).
    assert (HA' : conv_arguments w groups cin cout (x root) (weight root) None b xs ys).
    { unfold conv_arguments in *. rewrite (proj1 Hx). exact HA. }
    destruct (HT root true cin cout (x root) (weight root) b xs ys (dy root) HA' (eq_trans (proj1 Hdy) ED)) as ((dX & B1 & B2) & (dW & C1 & C2) & (db & D1 & D2)).
    unfold feature_gradients_by. cbv zeta. fold root. split; [|split; [|split]].
    + exists dX. split; [exact (si_input M w groups cin cout (weight root) dY (dy root) b xs ys Hdy ED dX B2)|].
      intros idx v Hv. pose proof (worker_at_In _ _ _ Hv) as Hr.
      assert (Ev : v = root).
      { unfold root. destruct (p_ranks P) as [|a [|]]; try discriminate. destruct Hr as [<-|[]]. reflexivity. }
      subst v. unfold conv_gradient_by. rewrite (proj2 (is_active_spec _ _) Hr), Eq1. cbn [negb].
      exists dX. split; [exact B1|]. apply teq_sym. apply single_block; rewrite ?HLW; auto; [apply Hv|]. rewrite (proj1 B2). congruence.
    + unfold conv_weight_gradient_of, conv_parameter_gradient_by. rewrite Eq1. exists dW. split; [exact C1|].
      exact (si_weight M w groups cin cout X (x root) dY (dy root) b ys Hx Hdy ED dW C2).
    + intros _. unfold conv_bias_gradient_of, conv_parameter_gradient_by. rewrite Eq1. exists db. split; [exact D1|].
      exact (si_bias M cout dY (dy root) b ys Hdy ED db D2).
    + intros v Hv. unfold conv_gradient_by. apply is_active_false in Hv. now rewrite Hv.
  - intros Hmany. specialize (Hin Hmany).
    pose proof (sr_shapes P L X x HB) as HS. split; [|split].
    + intros v Hv. exact (proj1 (halo_started world P L w rzero X x HG HB) v Hv).
    + intros calls init eager. exact (C76_safe R M world P _ _ _ _ _ calls init eager (fg_given world P L w HG _ HS) (ow_planned world P L w HG (b :: cin :: ys) x HS)).
    + intros pre init eager gf Hp Hf. split.
      * exact (sr_start M back_x back_w back_b world P L w cin cout groups use_bias dt rg weight bias X dY b xs ys x dy HT HG H1 HW HA HB Hmany Hin HD pre init eager gf Hp Hf).
      * intros pre' init' eager' gb Hp' Hb.
        exact (sr_ok M red back_x back_w back_b world P L w cin cout groups use_bias dt rg weight bias X dY b xs ys x dy HM HT HG H1 HW HA HB Hmany Hin HD
          pre init eager gf Hp Hf pre' init' eager' gb Hp' Hb).
Qed.

Theorem C78_feature_gradients : C78_statement.
Proof. exact C78_proof. Qed.

(** The convolution of C53's example on a machine that rounds: a pass forwards on its own,
    then another pass forwards and the backward pass. *)
Definition fr_dY : tensor Zring := @mkt Zring [1; 2; 10] (fun i => 101 * tat fx_dY i).
Definition fr_dy (v : Z) : tensor Zring := if v =? 9 then cv_x 9 else block cv_L [0; 0; v - 10] fr_dY.
Definition fr_layer := history_rounds_by cv_P (fun v => tshape (cv_arg v)) (fun v => u_recv (cv_plan v)) (fun v => u_send (cv_plan v)) (m_add ex61_M).
Definition fr_gf : @gst (@hst Zring) (tensor Zring) :=
  played cv_world (fr_layer ([] ++ [HForward cv_arg])) cv_zero (fun _ _ _ _ => false) (fun _ => [1; 0; 3; 2]%nat) 500.
Definition fr_x := alternate_back_x ex61_M cv_w 1.
Definition fr_w := alternate_back_w ex61_M cv_w 1.
Definition fr_b := alternate_back_b ex61_M.
Definition fr_back : Z -> tensor Zring := conv_back_argument_by fr_x cv_P cv_w gx_dt gx_rg cv_weight cv_x (halo_result fr_gf) fr_dy.
Definition fr_gb : @gst (@hst Zring) (tensor Zring) :=
  played cv_world (fr_layer ([HForward cv_arg] ++ [HBackward fr_back])) cv_zero (fun _ _ _ _ => true) (fun _ => [2; 3; 0; 1]%nat) 500.

Lemma fr_given : adds ex61_M (alternate ex61_M) /\ torch_conv_back_by ex61_M cv_w 1 fr_x fr_w fr_b /\
  feature_given cv_world cv_P cv_L cv_w /\ nth 1 (p_shape cv_P) 0 = 1 /\
  conv_parameters cv_P cv_w 2 2 1 true cv_weight cv_bias /\
  conv_arguments cv_w 1 2 2 cv_G (cv_weight (hd 0 (p_ranks cv_P))) None 1 [10] [10] /\
  holds_blocks cv_P cv_L cv_G cv_x /\ within cv_L cv_w [1; 2; 10] /\
  tshape fr_dY = [1; 2; 10] /\ holds_blocks cv_P (balanced [1; 2; 10] (p_shape cv_P)) fr_dY fr_dy.
Proof.
  pose proof C53_example as (A & B & C & _ & E & F & _). split; [apply C74_example|]. split; [apply alternate_back_ok|].
  split; [exact A|]. split; [exact B|]. split; [exact C|].
  split.
  { do 1 (split; [lia|]). split; [exists 2; reflexivity|]. split; [exists 2; reflexivity|]. do 3 (split; [lia|]). do 2 (split; [reflexivity|]).
    split; [repeat constructor; lia|]. split.
    { split; [reflexivity|]. intros [|j] Hj; cbn in Hj; try lia; cbn; (split; [lia|]); unfold window_fits; intros; lia. }
    split; [repeat constructor; lia|]. split; [reflexivity|exact I]. }
  split; [exact E|]. split; [exact F|]. split; [reflexivity|].
  split; [reflexivity|]. intros idx v Hv. destruct (cv_workers _ _ Hv) as [-> [-> |[-> | ->]]]; apply teq_refl.
Qed.

Example C78_example :
  adds ex61_M (alternate ex61_M) /\ torch_conv_back_by ex61_M cv_w 1 fr_x fr_w fr_b /\
  feature_given cv_world cv_P cv_L cv_w /\ nth 1 (p_shape cv_P) 0 = 1 /\
  conv_parameters cv_P cv_w 2 2 1 true cv_weight cv_bias /\
  conv_arguments cv_w 1 2 2 cv_G (cv_weight (hd 0 (p_ranks cv_P))) None 1 [10] [10] /\
  holds_blocks cv_P cv_L cv_G cv_x /\ within cv_L cv_w [1; 2; 10] /\
  tshape fr_dY = [1; 2; 10] /\ holds_blocks cv_P (balanced [1; 2; 10] (p_shape cv_P)) fr_dY fr_dy /\
  same_calls cv_P cv_arg [] /\ ends cv_world (fr_layer ([] ++ [HForward cv_arg])) cv_zero (fun _ _ _ _ => false) fr_gf /\
  same_calls cv_P cv_arg [HForward cv_arg] /\
  ends cv_world (fr_layer ([HForward cv_arg] ++ [HBackward fr_back])) cv_zero (fun _ _ _ _ => true) fr_gb /\
  let dx := conv_gradient_by fr_x cv_P cv_w cv_weight cv_x fr_dy (halo_result fr_gb) in
  let dW := conv_weight_gradient_of (alternate ex61_M) fr_w cv_P cv_w gx_dt gx_rg cv_weight cv_x (halo_result fr_gf) fr_dy 10 in
  let db := conv_bias_gradient_of (alternate ex61_M) fr_b cv_P cv_w gx_dt gx_rg cv_weight cv_bias cv_x (halo_result fr_gf) fr_dy 10 in
  map (tat (val (dx 11))) (indices [1; 2; 3]) = [3200; 5008; 6816; 2288; 3504; 4704] /\
  map (tat (input_gradient fx_K cv_w [1; 2; 10] fr_dY)) (map (fun i => [nth 0 i 0; nth 1 i 0; 4 + nth 2 i 0]) (indices [1; 2; 3])) = [3232; 5050; 6868; 2323; 3535; 4747] /\
  map (tat (val dW)) (indices [2; 2; 3]) = [69040; 89328; 60560; 159936; 139840; 60528; 130864; 175696; 146912; 494464; 529168; 419600] /\
  map (tat (weight_gradient cv_w 2 1 cv_G fr_dY)) (indices [2; 2; 3]) = [69084; 89385; 60600; 159984; 139885; 60600; 130896; 175740; 146955; 494496; 529240; 419655] /\
  map (tat (val db)) (indices [2]) = [432; 3472] /\ map (tat (bias_gradient 2 fr_dY)) (indices [2]) = [505; 3535] /\ dx 9 = Ok (fr_dy 9).
Proof.
  destruct fr_given as (A1 & A2 & A3 & A4 & A5 & A6 & A7 & A8 & A9 & A10). do 10 (split; [assumption|]).
  split; [constructor|]. split; [apply played_ends; vm_compute; reflexivity|]. split; [repeat constructor|].
  split; [apply played_ends; vm_compute; reflexivity|]. cbv zeta.
  do 6 (split; [vm_compute; reflexivity|]). reflexivity.
Qed.

Print Assumptions C78_feature_gradients.
