(** Channel- and generally-distributed convolutions: C33. *)

From Verif Require Import Prelude SpecIndex SpecLayout SpecPartition SpecHalo ModelSlicing ModelDecomposition ModelPartition ProofSlicing
  ProofDecomposition ProofPartition Ring Tensor ModelCollectives ProofCollectives PropCollectives Blocks ModelUtilities P2P Rounds
  ModelRepartition ProofRepartition PropRepartition ModelHaloMixin ProofHaloMixin PropHaloMixin ModelHaloExchange PropHaloExchange
  ModelFeatureLayer SpecFeature ProofFeatureLayer PropFeatureLayer PropFeatureConv ModelLinear ProofWork PropLinear ModelConv ProofConv
  ProofConvParts.

(** ** Statements *)

(** A convolution with weight [W] of [cout] x [cin / groups] x kernel, an input [X]
    of [cin] channels with sequential output [Y], on partitions of shapes
    1 x ci x S, 1 x co x S and co x ci x S.  Every worker has a channel: torch
    cannot initialise a layer without. *)
Definition conv_layer {R : CRing} (Px Py Pw : part) (co ci : Z) (S : list Z) (w : window) (groups cin cout : Z)
    (W : tensor R) (bias : option (tensor R)) (X Y : tensor R) : Prop :=
  conv_partitions Px Py Pw co ci S /\ length S = length (w_kernel w) /\ window_ok (length (w_kernel w)) w /\
  co <= cout /\ ci <= cin /\ 0 < groups /\ (groups | cout) /\ (groups | cin) /\
  tshape W = cout :: cin / groups :: w_kernel w /\
  match bias with Some v => tshape v = [cout] | None => True end /\
  (exists b xs, tshape X = b :: cin :: xs /\ length xs = length (w_kernel w) /\ nonneg_shape xs) /\
  is_sequential (conv_kernel w cout groups W bias) (fun _ => cout) rzero w X Y.

(** The parameters: the workers with feature index 0 hold the blocks of the weight,
    those of them with input-channel index 0 the blocks of the bias. *)
Definition conv_parameters_held {R : CRing} (Pw : part) (co ci : Z) (w : window) (cout : Z)
    (W : tensor R) (bias : option (tensor R)) (weight bias_of : Z -> tensor R) : Prop :=
  let nk := length (w_kernel w) in
  (forall j i v, worker_at Pw (j :: i :: repeat 0 nk) v ->
     teq (weight v) (block (balanced (tshape W) (co :: ci :: repeat 1 nk)) (j :: i :: repeat 0 nk) W)) /\
  match bias with
  | Some b => forall j v, worker_at Pw (j :: 0 :: repeat 0 nk) v -> teq (bias_of v) (block (balanced [cout] [co]) [j] b)
  | None => True
  end /\
  forall v, In v (p_ranks Pw) -> nonneg_shape (tshape (weight v)) /\ nonneg_shape (tshape (bias_of v)).

(** The other workers pass any tensor with a dimension. *)
Definition others_pass {R : CRing} (Px Py Pw : part) (x : Z -> tensor R) : Prop :=
  forall v, In v (p_ranks Pw) \/ In v (p_ranks Py) -> ~ In v (p_ranks Px) -> nonneg_shape (tshape (x v)) /\ tshape (x v) <> [].

(** What the layer is to deliver. *)
Definition conv_delivers {R : CRing} (Px Py Pw : part) (Y : tensor R) (x : Z -> tensor R) (y : Z -> result (tensor R)) : Prop :=
  (forall idx d, worker_at Py idx d -> exists t, y d = Ok t /\ teq t (block (balanced (tshape Y) (p_shape Py)) idx Y)) /\
  (forall v, In v (p_ranks Px) \/ In v (p_ranks Pw) -> ~ In v (p_ranks Py) -> exists t n, y v = Ok t /\ tshape t = [n; 0] /\ 0 <= n) /\
  (forall v, ~ In v (p_ranks Px) -> ~ In v (p_ranks Pw) -> ~ In v (p_ranks Py) -> y v = Ok (x v)).

Definition has_bias {R : CRing} (bias : option (tensor R)) : bool := match bias with Some _ => true | None => false end.

(** The weight made by the constructor has the shape of the block. *)
Definition weights_made {R : CRing} (Pw : part) (co ci : Z) (w : window) (groups cin cout : Z) (W : tensor R) : Prop :=
  let nk := length (w_kernel w) in
  forall j i s v, worker_at Pw (j :: i :: s) v ->
    local_weight_shape Pw cin cout groups w (j :: i :: s) =
    block_shape (balanced (tshape W) (co :: ci :: repeat 1 nk)) (j :: i :: repeat 0 nk).

Definition C33_channel_statement (extra : Z -> part -> part -> part -> Prop) : Prop :=
  forall (R : CRing) (Px Py Pw : part) (co ci : Z) (w : window) (groups cin cout : Z)
    (W : tensor R) (bias : option (tensor R)) (X Y : tensor R) (weight bias_of x : Z -> tensor R) dt dt' rg rg',
  conv_layer Px Py Pw co ci (repeat 1 (length (w_kernel w))) w groups cin cout W bias X Y ->
  extra groups Px Py Pw ->
  conv_parameters_held Pw co ci w cout W bias weight bias_of ->
  holds_blocks Px (balanced (tshape X) (p_shape Px)) X x -> others_pass Px Py Pw x ->
  weights_made Pw co ci w groups cin cout W /\
  conv_delivers Px Py Pw Y x (channel_conv_forward Px Py Pw w groups (has_bias bias) dt dt' rg rg' weight bias_of x).

(** Channels and features distributed: as in C30, the layer works on the result of a
    halo exchange, in any execution of it after any earlier calls. *)
Definition C33_general_statement (extra : Z -> part -> part -> part -> Prop) (fits : layout -> window -> list Z -> Prop) : Prop :=
  forall (R : CRing) (world : list Z) (Px Py Pw : part) (co ci : Z) (S : list Z) (L : layout) (w : window) (groups cin cout : Z)
    (W : tensor R) (bias : option (tensor R)) (X Y : tensor R) (weight bias_of x : Z -> tensor R) dt dt' dtw dtb rg rg' rgw rgb,
  conv_layer Px Py Pw co ci S w groups cin cout W bias X Y ->
  extra groups Px Py Pw ->
  conv_parameters_held Pw co ci w cout W bias weight bias_of ->
  feature_given world Px L w -> holds_blocks Px L X x -> others_pass Px Py Pw x ->
  ((1 < length (p_ranks Pw))%nat -> fits L w (out_counts X Y)) ->
  let shape v := tshape (x v) in
  let arg := halo_argument Px w rzero shape x in
  let plan := halo_plan Px w shape in
  let layer := history_rounds Px (fun v => tshape (arg v)) (fun v => u_recv (plan v)) (fun v => u_send (plan v)) in
  weights_made Pw co ci w groups cin cout W /\ halo_ready world Px w rzero x /\
  forall pre init eager g, same_calls Px arg pre -> ends world (layer (pre ++ [HForward arg])) init eager g ->
  conv_delivers Px Py Pw Y x
    (general_conv_forward Px Py Pw w groups (has_bias bias) dt dt' dtw dtb rg rg' rgw rgb weight bias_of shape x (halo_result g)).

(** The channels are not grouped, or not distributed; and if P_w has one worker, P_x
    and P_y have only that worker too. *)
Definition plain (groups : Z) (Px Py Pw : part) : Prop :=
  (groups = 1 \/ nth 0 (p_shape Pw) 0 = 1 /\ nth 1 (p_shape Pw) 0 = 1) /\
  (length (p_ranks Pw) = 1%nat -> p_ranks Px = p_ranks Pw /\ p_ranks Py = p_ranks Pw).

(** ** From the local layers to the output *)

Section Combine.
  Context {R : CRing}.
  Variables (Px Py Pw : part) (co ci : Z) (S : list Z) (w : window) (groups cin cout : Z).
  Variables (W : tensor R) (bias : option (tensor R)) (X Y : tensor R).
  Hypothesis HL : conv_layer Px Py Pw co ci S w groups cin cout W bias X Y.
  Hypothesis HE : plain groups Px Py Pw.
  Variables (b : Z) (xs ys : list Z).
  Hypothesis EX : tshape X = b :: cin :: xs.
  Hypothesis Lxs : length xs = length (w_kernel w).
  Hypothesis EY : tshape Y = b :: cout :: ys.

  Let out j i s := part_out co ci S w groups cin cout b ys W X bias j i s.

  Lemma k_parts : conv_partitions Px Py Pw co ci S. Proof. apply HL. Qed.
  Lemma k_pos : 0 < co /\ 0 < ci /\ pos_shape S. Proof. exact (c_pos _ _ _ _ _ _ k_parts). Qed.
  Lemma k_groups : groups = 1 \/ (co = 1 /\ ci = 1).
  Proof. destruct HE as [E _]. rewrite (c_sw _ _ _ _ _ _ k_parts) in E. exact E. Qed.

  Lemma k_weights : weights_made Pw co ci w groups cin cout W.
  Proof.
    unfold weights_made. intros j i s v Hv. destruct HL as (HP & HS & Hw & Hco & Hci & Hg & Hgo & Hgi & HW & HB & _).
    destruct (pw_idx _ _ _ _ _ _ HP _ (proj1 Hv)) as (j' & i' & s' & E & Hj & Hi & Hs). inversion E; subst j' i' s'.
    destruct k_pos as (P1 & P2 & P3).
    rewrite HW, !bal_shape_cons by auto. rewrite ones_shape.
    unfold local_weight_shape. rewrite (c_sw _ _ _ _ _ _ HP). cbn [firstn]. unfold compute_subshape. cbn [map3].
    do 2 f_equal. destruct k_groups as [->|[_ E']]; [now rewrite !Z.div_1_r|]. assert (i = 0) by lia. subst i. now rewrite E', !unit_sub.
  Qed.

  Variables (dt dt' : Z -> Z) (rg rg' : Z -> bool) (local : Z -> tensor R -> result (tensor R)) (inp : Z -> tensor R).
  Hypothesis Hin : forall v, In v (p_ranks Px) -> nonneg_shape (tshape (inp v)) /\ tshape (inp v) <> [].
  Hypothesis Hother : others_pass Px Py Pw inp.
  Hypothesis Hlocal : forall j i s u v t, worker_at Pw (j :: i :: s) u -> worker_at Px (0 :: i :: s) v ->
    0 <= j < co -> 0 <= i < ci -> valid_index S s -> teq t (inp v) -> exists t', local u t = Ok t' /\ teq t' (out j i s).

  Lemma k_combine : conv_delivers Px Py Pw Y inp (work_forward Px Pw (y_part Py co S) false false false dt dt' rg rg' local inp).
  Proof.
    pose proof k_parts as HP. pose proof (c_px _ _ _ _ _ _ HP) as H1. pose proof (c_py _ _ _ _ _ _ HP) as H2. pose proof (c_pw _ _ _ _ _ _ HP) as H3.
    destruct k_pos as (P1 & P2 & P3). pose proof k_groups as Gr.
    destruct HL as (_ & HS & Hw & Hco & Hci & Hg & Hgo & Hgi & HW & HB & _ & HY).
    set (o := fun u => match index_in Pw u with Some (j :: i :: s) => out j i s | _ => inp u end).
    assert (Eo : forall j i s u, worker_at Pw (j :: i :: s) u -> o u = out j i s).
    { intros j i s u Hu. unfold o. apply index_in_spec in Hu; auto. now rewrite Hu. }
    destruct (work_sum Px Pw (y_part Py co S) false false false dt dt' rg rg' local inp o
                (c_bc _ _ _ _ _ _ HP) (c_rd _ _ _ _ _ _ HP) (or_introl eq_refl)) as (A & B & C & D).
    - intros v Hv. destruct (in_dec Z.eq_dec v (p_ranks Px)) as [Hi|Hi]; [auto|]. apply Hother; auto. destruct Hv as [?|[?|?]]; auto. contradiction.
    - intros s u t Hp _ Ht. destruct (c_source _ _ _ _ _ _ HP s u Hp) as (j & i & s' & Hu & Hs & Hj & Hi & Hs').
      rewrite (Eo _ _ _ _ Hu). eapply Hlocal; eauto.
    - intros u Hu. destruct (worker_at_exists Pw u H3 Hu) as [idx Hi].
      destruct (pw_idx _ _ _ _ _ _ HP idx (proj1 Hi)) as (j & i & s & -> & Hj & Hi' & Hs). rewrite (Eo _ _ _ _ Hi).
      apply part_nonneg with (Y := Y) (xs := xs); auto; lia.
    - intros d u u' Hu Hu'. apply (c_destination _ _ _ _ _ _ HP) in Hu as (j & i & s & Hu & Hd), Hu' as (j' & i' & s' & Hu' & Hd').
      rewrite (Eo _ _ _ _ Hu), (Eo _ _ _ _ Hu'). pose proof (worker_at_fun Py _ _ d H2 Hd Hd') as E. inversion E. reflexivity.
    - split; [|split].
      + intros idx d Hd. destruct (py_idx _ _ _ _ _ _ HP idx (proj1 Hd)) as (j & s & -> & Hj & Hs).
        destruct (A d _ (worker_at_In _ _ _ Hd) (c_contributors _ _ _ _ _ _ HP j s d Hd)) as (t & E & T1 & T2).
        assert (Wk : forall i, 0 <= i < ci -> worker_at Pw (j :: i :: s) (wk Pw (j :: i :: s))).
        { intros i Hi. apply wk_worker; auto. now apply (pw_ok _ _ _ _ _ _ HP). }
        assert (Et : tshape t = part_shape co S w cout b ys j s).
        { rewrite (T1 (wk Pw (j :: 0 :: s))).
          - rewrite (Eo j 0 s); [reflexivity|]. apply Wk. lia.
          - apply in_map_iff. exists 0. split; auto. apply in_zrange. lia. }
        exists t. split; [exact E|]. rewrite (c_sy _ _ _ _ _ _ HP). split.
        * rewrite Et. cbn [block tshape]. exact (part_block_shape co S w groups cin cout b ys W X bias Hg Y xs EX Lxs EY HY P3 HS j s Hj Hs).
        * intros p Hp. rewrite T2 by auto. rewrite sumf_map. rewrite Et in Hp.
          rewrite <- (parts_sum co ci S w groups cin cout b ys W X bias) with (xs := xs); auto; try lia.
          apply sumf_ext. intros i Hi. apply in_zrange in Hi. now rewrite (Eo j i s) by auto.
      + intros v Hv Hn. destruct (in_dec Z.eq_dec v (p_ranks Pw)) as [Hi|Hi].
        * exact (B v Hi Hn).
        * destruct Hv as [Hv|Hv]; [|contradiction]. exact (C v Hv Hi Hn).
      + exact D.
  Qed.
End Combine.
