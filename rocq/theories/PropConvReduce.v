(** Channel- and generally-distributed convolutions in machine arithmetic: C70. *)

From Coq Require Import Sorting.Permutation.
From Verif Require Import Prelude SpecIndex SpecLayout SpecPartition SpecHalo ModelSlicing ModelDecomposition ModelPartition ProofSlicing
  ProofDecomposition ProofPartition Ring Tensor ModelCollectives ProofCollectives PropCollectives Blocks ModelUtilities P2P Rounds
  ModelRepartition ProofRepartition PropRepartition ModelHaloMixin ProofHaloMixin PropHaloMixin ModelHaloExchange PropHaloExchange
  ModelFeatureLayer SpecFeature ProofFeatureLayer PropFeatureLayer PropFeatureConv ModelLinear ProofWork PropLinear ModelConv ProofConv
  ProofConvParts PropConv PropConvChannel PropConvGeneral ModelReduce SpecSum ProofReduce PropReduce SpecConvSum ModelConvReduce ProofConvReduce.

(** A convolution whose channels are distributed as C33 permits. *)
Definition distributed_conv {R : CRing} (Px Py Pw : part) (co ci : Z) (S : list Z) (w : window) (groups cin cout : Z)
    (X W : tensor R) (bias : option (tensor R)) (b : Z) (xs ys : list Z) (weight bias_of : Z -> tensor R) : Prop :=
  conv_partitions Px Py Pw co ci S /\ length S = length (w_kernel w) /\ window_ok (length (w_kernel w)) w /\ co <= cout /\ ci <= cin /\
  conv_arguments w groups cin cout X W bias b xs ys /\ plain groups Px Py Pw /\
  conv_parameters_held Pw co ci w cout W bias weight bias_of.

(** The workers of P_y get the blocks of one tensor, every entry of which is a sum of
    exactly the products of the sequential layer and the bias, each once; those with
    padding may be missing. *)
Definition C70_channel_statement : Prop :=
  forall (R : CRing) (M : machine R) red torch (Px Py Pw : part) (co ci : Z) (w : window) (groups cin cout : Z)
    (X W : tensor R) (bias : option (tensor R)) (b : Z) (xs ys : list Z) (weight bias_of x : Z -> tensor R) dt dt' rg rg',
  adds M red -> torch_conv_by M w groups torch ->
  distributed_conv Px Py Pw co ci (repeat 1 (length (w_kernel w))) w groups cin cout X W bias b xs ys weight bias_of ->
  holds_blocks Px (balanced (tshape X) (p_shape Px)) X x -> others_pass Px Py Pw x ->
  exists Y, conv_by M w groups cin cout X W bias b ys Y /\
    conv_delivers Px Py Pw Y x (channel_conv_by red torch Px Py Pw (has_bias bias) dt dt' rg rg' weight bias_of x).

Definition C70_general_statement : Prop :=
  forall (R : CRing) (M : machine R) red torch (world : list Z) (Px Py Pw : part) (co ci : Z) (S : list Z) (L : layout) (w : window)
    (groups cin cout : Z) (X W : tensor R) (bias : option (tensor R)) (b : Z) (xs ys : list Z) (weight bias_of x : Z -> tensor R)
    dt dt' dtw dtb rg rg' rgw rgb,
  adds M red -> torch_conv_by M w groups torch ->
  distributed_conv Px Py Pw co ci S w groups cin cout X W bias b xs ys weight bias_of ->
  feature_given world Px L w -> holds_blocks Px L X x -> others_pass Px Py Pw x ->
  ((1 < length (p_ranks Pw))%nat -> within L w (b :: cin :: ys)) ->
  let shape v := tshape (x v) in
  let arg := halo_argument Px w rzero shape x in
  let plan := halo_plan Px w shape in
  let layer := history_rounds Px (fun v => tshape (arg v)) (fun v => u_recv (plan v)) (fun v => u_send (plan v)) in
  forall pre init eager g, same_calls Px arg pre -> ends world (layer (pre ++ [HForward arg])) init eager g ->
  exists Y, conv_by M w groups cin cout X W bias b ys Y /\
    conv_delivers Px Py Pw Y x
      (general_conv_by red torch Px Py Pw w (has_bias bias) dt dt' dtw dtb rg rg' rgw rgb weight bias_of shape x (halo_result g)).

(** Computing in the ring, this is the sequential layer. *)
Definition C70_exact_statement : Prop :=
  forall (R : CRing) (w : window) (groups cin cout : Z) (X W : tensor R) (bias : option (tensor R)) (b : Z) (xs ys : list Z) (Y : tensor R),
  conv_arguments w groups cin cout X W bias b xs ys -> conv_by (exact_machine R) w groups cin cout X W bias b ys Y ->
  is_sequential (conv_kernel w cout groups W bias) (fun _ => cout) rzero w X Y.

(** ** Proofs *)

Section Given.
  Context {R : CRing}.
  Variables (Px Py Pw : part) (co ci : Z) (S : list Z) (w : window) (groups cin cout : Z).
  Variables (X W : tensor R) (bias : option (tensor R)) (b : Z) (xs ys : list Z) (weight bias_of : Z -> tensor R).
  Hypothesis HD : distributed_conv Px Py Pw co ci S w groups cin cout X W bias b xs ys weight bias_of.

  Lemma given_layer : exists Y0, conv_layer Px Py Pw co ci S w groups cin cout W bias X Y0 /\ tshape Y0 = b :: cout :: ys.
  Proof.
    destruct HD as (HP & HS & Hw & Hco & Hci & (A1 & A2 & A3 & A4 & A5 & A6 & A7 & A8 & A9 & A10 & A11 & A12 & A13) & _).
    exists (seq_conv w cin cout groups W bias X (b :: cout :: ys)). split; [|reflexivity].
    repeat (split; [auto; fail|]). split; [eauto|]. exists b, cin, xs, ys. split; [auto|]. split; [reflexivity|]. repeat (split; [auto; fail|]).
    intros b' c' o _. cbn [seq_conv tat]. rewrite A7. reflexivity.
  Qed.

  Variables (M : machine R) (torch : Z -> bool -> tensor R -> option (tensor R) -> tensor R -> result (tensor R)).
  Hypothesis HT : torch_conv_by M w groups torch.

  (** Features not distributed: torch's own padding. *)
  Lemma padded_share j i v wt bt t : S = repeat 1 (length (w_kernel w)) -> 0 <= j < co -> 0 <= i < ci ->
    teq wt (weight_block co ci w W j i) ->
    match (if i =? 0 then bias_block co cout bias j else None), bt with
    | Some v, Some v' => teq v' v
    | None, None => True
    | _, _ => False
    end ->
    teq t (block (balanced (tshape X) (1 :: ci :: repeat 1 (length (w_kernel w)))) (0 :: i :: repeat 0 (length (w_kernel w))) X) ->
    let s := repeat 0 (length (w_kernel w)) in
    exists z, torch v true wt bt t = Ok z /\ tshape z = part_shape co S w cout b ys j s /\
      share_by M co ci S w groups cin cout W bias X b ys j i s z.
  Proof.
    intros HS1 Hj Hi Hwt Hbt Ht s. destruct given_layer as (Y0 & HL & EY0).
    pose proof HD as (HP & HS & Hw & Hco & Hci & (A1 & A2 & A3 & A4 & A5 & A6 & A7 & A8 & A9 & A10 & A11 & A12 & A13) & HE & _).
    pose proof (xb_shape Px Py Pw co ci S w groups cin cout W bias X Y0 HL HE b xs A7 A8 j i wt Hj Hi) as Sb. cbv zeta in Sb.
    set (xb := block (balanced (tshape X) (1 :: ci :: repeat 1 (length (w_kernel w)))) (0 :: i :: repeat 0 (length (w_kernel w))) X) in *.
    destruct Ht as [Et Vt].
    assert (Ey : vec (length (w_kernel w)) (fun k => subshape1 (nth k S 0) (nth k s 0) (nth k ys 0)) = ys).
    { destruct A10 as [Ly _]. apply list_eq_nth with (d := 0); rewrite vec_length; [congruence|].
      intros k Hk. rewrite vec_nth by auto. unfold s. rewrite HS1, nth_zeros, nth_ones by auto. apply unit_sub. }
    apply (local_share M Px Py Pw co ci S w groups cin cout W bias X Y0 HL HE b xs ys A7 A8 EY0 w (torch v true) j i s wt bt t xs); auto.
    - now rewrite Et.
    - rewrite Ey. exact A10.
    - rewrite Ey. exact A11.
    - exact (HT v true).
    - rewrite Ey. intros b' ch o q Hb' Hch Ho Hq p g.
      assert (Ew : read_point S w ys s o q = window_at w o q).
      { unfold read_point, window_at, vec. apply map_ext_in. intros k Hk. apply in_seq in Hk. unfold s. rewrite HS1, nth_zeros, nth_ones by lia.
        rewrite start1_0 by lia. now rewrite Z.add_0_l. }
      unfold p, g. rewrite Ew. assert (Lp : length (window_at w o q) = length xs) by (unfold window_at; rewrite vec_length; congruence).
      set (pt := window_at w o q) in *. clearbody pt.
      assert (Ei : inside (b :: subshape1 ci i cin :: xs) (b' :: ch :: pt) = inside (b :: cin :: xs) (b' :: start1 ci i cin + ch :: pt)).
      { apply Bool.eq_iff_eq_true. rewrite !inside_spec, !valid_index_cons. destruct (k_pos _ _ _ _ _ _ _ _ _ _ _ _ _ _ HL) as (_ & P2 & _).
        pose proof (start1_sub_le ci i cin ltac:(lia) ltac:(lia) Hi). intuition lia. }
      unfold value_at. rewrite Et, Sb, A7, Ei. split; [|auto].
      destruct (inside (b :: cin :: xs) (b' :: start1 ci i cin + ch :: pt)) eqn:E; [|reflexivity].
      rewrite Vt by (rewrite Et, Sb; apply inside_spec; exact Ei).
      exact (xb_value Px Py Pw co ci S w groups cin cout W bias X Y0 HL HE b xs A7 A8 j i wt Hj Hi b' ch pt Lp).
  Qed.

  (** One worker. *)
  Lemma serial_by idx v t : length (p_ranks Pw) = 1%nat -> worker_at Py idx v -> teq t X ->
    exists z Y, torch v true (weight v) (if has_bias bias then Some (bias_of v) else None) t = Ok z /\
      conv_by M w groups cin cout X W bias b ys Y /\ teq z (block (balanced (tshape Y) (p_shape Py)) idx Y).
  Proof.
    intros H1 Hv Ht. destruct given_layer as (Y0 & HL & EY0).
    pose proof HD as (HP & HS & Hw & Hco & Hci & (A1 & A2 & A3 & A4 & A5 & A6 & A7 & A8 & A9 & A10 & A11 & A12 & A13) & HE & HH).
    destruct (one_shape Px Py Pw co ci S w groups cin cout W bias X Y0 HL H1 weight bias_of HH) as (E1 & E2 & E3).
    pose proof HE as [_ E4]. destruct (E4 H1) as [E5 E6]. set (nk := length (w_kernel w)) in *.
    assert (Hz : valid_index S (repeat 0 nk)).
    { rewrite E3. clear. induction nk as [|n IH]; [constructor|]. cbn [repeat]. apply valid_index_cons. split; [lia|auto]. }
    assert (Hw0 : worker_at Pw (0 :: 0 :: repeat 0 nk) v).
    { assert (Hin : In v (p_ranks Pw)) by (rewrite <- E6; eapply worker_at_In; eauto).
      destruct (worker_at_exists Pw v (c_pw _ _ _ _ _ _ HP) Hin) as [idx' Hv'].
      destruct (pw_idx _ _ _ _ _ _ HP _ (proj1 Hv')) as (j & i & s & -> & Hj & Hi & Hs).
      assert (j = 0) by lia. assert (i = 0) by lia. subst j i. rewrite E3 in Hs. apply ones_idx in Hs. now subst s. }
    destruct (py_idx _ _ _ _ _ _ HP idx (proj1 Hv)) as (j & s & -> & Hj & Hs). assert (j = 0) by lia. subst j.
    pose proof Hs as Hs'. rewrite E3 in Hs'. apply ones_idx in Hs'. subst s. clear Hj.
    pose proof HH as (HH1 & HH2 & _). fold nk in HH1, HH2.
    assert (Lw : length (tshape X) = length (1 :: 1 :: repeat 1 nk)) by (rewrite A7; cbn [length]; rewrite repeat_length; congruence).
    assert (Pw1 : pos_shape (1 :: 1 :: repeat 1 nk)) by (constructor; [lia|]; constructor; [lia|]; apply repeat_pos).
    assert (NX : nonneg_shape (tshape X)) by (rewrite A7; constructor; [lia|]; constructor; [lia|exact A9]).
    destruct (padded_share 0 0 v (weight v) (if has_bias bias then Some (bias_of v) else None) t E3 ltac:(lia) ltac:(lia)) as (z & Z1 & Z2 & Z3).
    - apply HH1. exact Hw0.
    - cbn [Z.eqb]. unfold bias_block. destruct bias as [bb|]; cbn [has_bias]; auto.
    - eapply teq_trans; [exact Ht|]. apply teq_sym. rewrite E2. fold nk. apply single_block.
      + rewrite balanced_workers by auto. constructor; auto. constructor; auto. apply Forall_forall. intros q Hq. now apply repeat_spec in Hq.
      + rewrite balanced_workers by auto. rewrite <- E3. repeat (apply valid_index_cons; split; [lia|]). exact Hz.
      + now rewrite balanced_shape.
    - fold nk in Z2, Z3.
      destruct (output_blocks M Px Py Pw co ci S w groups cin cout W bias X Y0 HL HE b xs ys A7 A8 EY0 (fun _ _ => z)) as (Y & C1 & C2).
      + intros j s Hj Hs'. assert (j = 0) by lia. subst j. rewrite E3 in Hs'. apply ones_idx in Hs'. subst s. fold nk. split; [exact Z2|].
        intros b' c' o Hq. rewrite E2. change (zrange 1) with [0]. cbn [flat_map]. rewrite app_nil_r, <- E2. now apply Z3.
      + exists z, Y. split; [exact Z1|]. split; [exact C1|]. rewrite (c_sy _ _ _ _ _ _ HP). apply C2; [lia|exact Hs].
  Qed.

  Lemma whole_input L x d : (forall idx v, worker_at Px idx v -> teq (x v) (block L idx X)) -> layout_shape L = tshape X -> layout_workers L = p_shape Px ->
    length (p_ranks Pw) = 1%nat -> In d (p_ranks Py) -> teq (x d) X.
  Proof.
    intros HX ES EL H1 Hd. destruct given_layer as (Y0 & HL & EY0).
    pose proof HD as (HP & _ & _ & _ & _ & _ & HE & HH). pose proof HE as [_ E4]. destruct (E4 H1) as [E5 E6].
    assert (Hin' : In d (p_ranks Px)) by (rewrite E5, <- E6; auto).
    destruct (worker_at_exists Px d (c_px _ _ _ _ _ _ HP) Hin') as [idx' Hd'].
    eapply teq_trans; [apply (HX idx' d Hd')|].
    destruct (one_shape Px Py Pw co ci S w groups cin cout W bias X Y0 HL H1 weight bias_of HH) as (Q1 & Q2 & ES').
    apply single_block; [|rewrite EL; apply Hd'|congruence].
    rewrite EL, (c_sx _ _ _ _ _ _ HP), Q2. constructor; auto. constructor; auto.
    rewrite ES'. apply Forall_forall. intros z Hz. now apply repeat_spec in Hz.
  Qed.
End Given.

Lemma C70_channel_proof : C70_channel_statement.
Proof.
  intros R M red torch Px Py Pw co ci w groups cin cout X W bias b xs ys weight bias_of x dt dt' rg rg' HM HT HD HX HO.
  set (S := repeat 1 (length (w_kernel w))) in *.
  destruct (given_layer _ _ _ _ _ _ _ _ _ _ _ _ _ _ _ _ _ _ HD) as (Y0 & HL & EY0).
  pose proof HD as (HP & HS & Hw & Hco & Hci & (A1 & A2 & A3 & A4 & A5 & A6 & A7 & A8 & A9 & A10 & A11 & A12 & A13) & HE & HH).
  assert (NX : nonneg_shape (tshape X)) by (rewrite A7; constructor; [lia|]; constructor; [lia|auto]).
  assert (HSk : ChannelConv = ChannelConv -> S = repeat 1 (length S)) by (intros _; unfold S; now rewrite repeat_length).
  assert (LX : length (tshape X) = length (p_shape Px)) by (rewrite A7, (c_sx _ _ _ _ _ _ HP); cbn [length]; lia).
  assert (PX : pos_shape (p_shape Px)) by apply (c_px _ _ _ _ _ _ HP).
  destruct (Nat.eqb_spec (length (p_ranks Pw)) 1) as [E1|E1].
  - pose proof HE as [_ E4]. destruct (E4 E1) as [E5 E6]. destruct HX as [ES HX].
    assert (Wy : exists d, In d (p_ranks Py)).
    { rewrite E6. destruct (p_ranks Pw) as [|d l]; [discriminate|]. exists d. now left. }
    destruct Wy as [d0 Hd0]. destruct (worker_at_exists Py d0 (c_py _ _ _ _ _ _ HP) Hd0) as [idx0 Hi0].
    assert (Hx : forall d, In d (p_ranks Py) -> teq (x d) X).
    { intros d Hd. eapply (whole_input _ _ _ _ _ _ _ _ _ _ _ _ _ _ _ _ _ _ HD); eauto. now rewrite balanced_workers. }
    destruct (serial_by _ _ _ _ _ _ _ _ _ _ _ _ _ _ _ _ _ _ HD M torch HT idx0 d0 (x d0) E1 Hi0 (Hx d0 Hd0)) as (z & Y & Z1 & Z2 & Z3).
    exists Y. split; [exact Z2|]. split; [|split].
    + intros idx d Hd. pose proof (worker_at_In _ _ _ Hd) as Hin.
      assert (d = d0) as -> by (rewrite E6 in Hin, Hd0; destruct (p_ranks Pw) as [|a [|]]; cbn in E1; try lia; destruct Hin as [<-|[]], Hd0 as [<-|[]]; auto).
      rewrite (worker_at_fun Py _ _ d0 (c_py _ _ _ _ _ _ HP) Hd Hi0).
      exists z. split; [|exact Z3]. unfold channel_conv_by. rewrite active_test by auto.
      rewrite (c_recast_x Px Py Pw co ci S HP ChannelConv d0 HSk), (c_recast_y Px Py Pw co ci S HP ChannelConv d0 HSk). cbn [rbind].
      unfold serial. rewrite (proj2 (is_active_spec (p_ranks Pw) d0)) by now rewrite <- E6. rewrite E1. cbn [Nat.eqb andb]. exact Z1.
    + intros v Hv Hn. exfalso. apply Hn. rewrite E6. destruct Hv; auto. congruence.
    + intros v H1 H2 H3. unfold channel_conv_by. now rewrite inactive_test.
  - destruct (combine_by M Px Py Pw co ci S w groups cin cout W bias X Y0 HL HE b xs ys A7 A8 EY0 red HM dt dt' rg rg'
                (channel_local_by torch Pw (has_bias bias) weight bias_of) x) as (Y & C1 & C2); auto.
    + intros v Hv. destruct (worker_at_exists Px v (c_px _ _ _ _ _ _ HP) Hv) as [idx Hi]. destruct HX as [ES HX].
      destruct (HX idx v Hi) as [Ev _]. rewrite Ev. cbn [block tshape]. rewrite balanced_block_shape by (auto; apply Hi).
      destruct (px_idx _ _ _ _ _ _ HP idx (proj1 Hi)) as (i & s & -> & Hii & Hs).
      rewrite A7, (c_sx _ _ _ _ _ _ HP). unfold compute_subshape. cbn [map3]. split; [|discriminate].
      constructor; [rewrite unit_sub; lia|]. constructor; [apply subshape1_nonneg; lia|].
      clear - A9 Hs A8. unfold S in *. apply ones_idx in Hs. subst s. rewrite <- A8. clear - A9.
      induction A9 as [|n l Hn Nl IH]; [constructor|]. cbn [length repeat map3]. constructor; [now rewrite unit_sub|auto].
    + intros j i s u v t Hu Hv Hj Hi Hs Ht. unfold channel_local_by. pose proof Hu as Hu'.
      apply index_in_spec in Hu'; [|apply (c_pw _ _ _ _ _ _ HP)]. rewrite Hu'. cbn [nth].
      pose proof Hs as Hs'. unfold S in Hs'. apply ones_idx in Hs'. subst s. destruct HH as (HH1 & HH2 & _).
      apply (padded_share _ _ _ _ _ _ _ _ _ _ _ _ _ _ _ _ _ _ HD M torch HT j i u (weight u)); auto.
      * apply HH1; auto.
      * destruct (Z.eqb_spec i 0) as [->|]; cbn [andb]; auto. unfold bias_block. destruct bias as [bb|]; cbn [has_bias]; auto.
      * eapply teq_trans; [exact Ht|]. destruct HX as [_ HX]. pose proof (HX _ _ Hv) as HX'. rewrite (c_sx _ _ _ _ _ _ HP) in HX'. exact HX'.
    + exists Y. split; [exact C1|]. eapply delivers_ext; [| |exact C2].
      * intros v Hv. unfold channel_conv_by. rewrite active_test by auto.
        rewrite (c_recast_x Px Py Pw co ci S HP ChannelConv v HSk), (c_recast_y Px Py Pw co ci S HP ChannelConv v HSk). cbn [rbind].
        unfold partner_missing, serial. apply Nat.eqb_neq in E1. rewrite E1, !andb_false_r. reflexivity.
      * intros v H1 H2 H3. unfold channel_conv_by. now rewrite inactive_test.
Qed.

Lemma C70_general_proof : C70_general_statement.
Proof.
  intros R M red torch world Px Py Pw co ci S L w groups cin cout X W bias b xs ys weight bias_of x dt dt' dtw dtb rg rg' rgw rgb
    HM HT HD HG HX HO HF shape arg plan layer pre init eager g Hpre Hend.
  destruct (given_layer _ _ _ _ _ _ _ _ _ _ _ _ _ _ _ _ _ _ HD) as (Y0 & HL & EY0).
  pose proof HD as (HP & HS & Hw & Hco & Hci & (A1 & A2 & A3 & A4 & A5 & A6 & A7 & A8 & A9 & A10 & A11 & A12 & A13) & HE & HH).
  assert (HSk : GeneralConv = ChannelConv -> S = repeat 1 (length S)) by discriminate.
  pose proof (c_pos _ _ _ _ _ _ HP) as (P1 & P2 & P3).
  destruct (Nat.eqb_spec (length (p_ranks Pw)) 1) as [E1|E1].
  - pose proof HE as [_ E4]. destruct (E4 E1) as [E5 E6]. destruct HX as [ES HX].
    assert (Wy : exists d, In d (p_ranks Py)).
    { rewrite E6. destruct (p_ranks Pw) as [|d l]; [discriminate|]. exists d. now left. }
    destruct Wy as [d0 Hd0]. destruct (worker_at_exists Py d0 (c_py _ _ _ _ _ _ HP) Hd0) as [idx0 Hi0].
    assert (Hx : forall d, In d (p_ranks Py) -> teq (x d) X).
    { intros d Hd. eapply (whole_input _ _ _ _ _ _ _ _ _ _ _ _ _ _ _ _ _ _ HD); eauto. apply HG. }
    destruct (serial_by _ _ _ _ _ _ _ _ _ _ _ _ _ _ _ _ _ _ HD M torch HT idx0 d0 (x d0) E1 Hi0 (Hx d0 Hd0)) as (z & Y & Z1 & Z2 & Z3).
    exists Y. split; [exact Z2|]. split; [|split].
    + intros idx d Hd. pose proof (worker_at_In _ _ _ Hd) as Hin.
      assert (d = d0) as -> by (rewrite E6 in Hin, Hd0; destruct (p_ranks Pw) as [|a [|]]; cbn in E1; try lia; destruct Hin as [<-|[]], Hd0 as [<-|[]]; auto).
      rewrite (worker_at_fun Py _ _ d0 (c_py _ _ _ _ _ _ HP) Hd Hi0).
      exists z. split; [|exact Z3]. unfold general_conv_by. rewrite active_test by auto.
      rewrite (c_recast_x Px Py Pw co ci S HP GeneralConv d0 HSk), (c_recast_y Px Py Pw co ci S HP GeneralConv d0 HSk). cbn [rbind].
      unfold serial. rewrite (proj2 (is_active_spec (p_ranks Pw) d0)) by now rewrite <- E6. rewrite E1. cbn [Nat.eqb andb]. exact Z1.
    + intros v Hv Hn. exfalso. apply Hn. rewrite E6. destruct Hv; auto. congruence.
    + intros v H1 H2 H3. unfold general_conv_by. now rewrite inactive_test.
  - assert (Hwi : within L w (b :: cin :: ys)).
    { apply HF. destruct (c_pw _ _ _ _ _ _ HP) as (_ & _ & Hp & E). pose proof (zprod_pos _ Hp). lia. }
    pose proof (fun idx v Hv => needed_windows world Px L w rzero X x HG b cin xs ys A7 A10 A6 A4 A11 HX Hwi pre init eager g idx v Hpre Hend Hv) as Hnd.
    cbv zeta in Hnd. fold shape in Hnd.
    destruct (combine_by M Px Py Pw co ci S w groups cin cout W bias X Y0 HL HE b xs ys A7 A8 EY0 red HM dt dt' rg rg'
                (general_local_by torch Pw (has_bias bias) dtw dtb rgw rgb weight bias_of) (general_input w Px shape x (halo_result g))) as (Y & C1 & C2).
    + intros v Hv. destruct (worker_at_exists Px v (c_px _ _ _ _ _ _ HP) Hv) as [idx Hi].
      destruct (Hnd idx v Hi) as (es & Es & _ & _ & Ns & _). split; [exact Ns|]. now rewrite Es.
    + intros v Hv Hn. unfold general_input, feature_setup. apply index_in_none in Hn as Hn'. rewrite Hn'. now apply HO.
    + intros j i s u v t Hu Hv Hj Hi Hs [Et Vt]. unfold general_local_by.
      destruct (q_params Px Py Pw co ci S HP w cout W bias weight bias_of HS HH dtw dtb rgw rgb j i s u Hu) as [(wt & Ew & Tw) (bt & Eb & Tb)].
      rewrite Ew, Eb. cbn [rbind].
      destruct (Hnd _ _ Hv) as (es & Es & Le & Oe & Ns & Ve). unfold window_read in Ve. rewrite (c_sx _ _ _ _ _ _ HP) in Es, Oe, Ve.
      cbn [nth Nat.add] in Es, Oe, Ve. rewrite unit_sub in Es, Ve. rewrite start1_0 in Ve by lia. clear Hnd.
      set (sl := general_input w Px shape x (halo_result g) v) in *.
      apply (local_share M Px Py Pw co ci S w groups cin cout W bias X Y0 HL HE b xs ys A7 A8 EY0 (bare w) (torch u false) j i s wt bt t es); auto.
      * now rewrite Et.
      * rewrite Es in Ns. inversion Ns as [|? ? _ Ns']. inversion Ns'. assumption.
      * split; [rewrite vec_length; symmetry; exact Le|]. intros k Hk. rewrite Le in Hk. cbn [bare w_kernel w_stride w_padding w_dilation].
        rewrite nth_zeros, vec_nth by exact Hk. destruct (Oe k Hk) as [O1 O2]. destruct (window_nth _ _ k Hw Hk) as (B1 & B2 & _).
        split; [lia|]. intros o Ho. rewrite <- O1. now apply out_extent_count.
      * apply Forall_forall. intros z Hz. apply In_nth with (d := 0) in Hz as (k & Hk & <-). rewrite vec_length in Hk. rewrite vec_nth by auto. apply Oe, Hk.
      * exact (HT u false).
      * intros b' ch o q Hb' Hch Ho Hq p gp. destruct (Ve b' ch o q Hb' Hch Ho Hq) as [V1 V2].
        pose proof (valid_index_length _ _ Ho) as Lo. rewrite vec_length in Lo. pose proof (valid_index_length _ _ Hq) as Lq.
        assert (Ep : window_at (bare w) o q = window_point w o q).
        { destruct Hw as (W1 & W2 & W3 & W4 & _). unfold window_at, window_point, vadd. cbn [bare w_kernel w_stride w_padding w_dilation].
          apply list_eq_nth with (d := 0); [rewrite vec_length, !map2_length; rewrite ?map2_length; lia|].
          intros k Hk. rewrite vec_length in Hk. rewrite vec_nth by auto. rewrite nth_zeros.
          rewrite map2_nth with (da := 0) (db := 0); rewrite ?map2_length; try lia.
          rewrite !map2_nth with (da := 0) (db := 0); try lia. }
        unfold p, gp. rewrite Ep. assert (Ei : inside (tshape t) (b' :: ch :: window_point w o q) = true) by (rewrite Et; now apply inside_spec).
        split; [|congruence]. unfold value_at at 1. rewrite Ei. rewrite Vt by (rewrite Et; exact V1). exact V2.
    + exists Y. split; [exact C1|]. eapply delivers_ext; [| |exact C2].
      * intros v Hv. unfold general_conv_by. rewrite active_test by auto.
        rewrite (c_recast_x Px Py Pw co ci S HP GeneralConv v HSk), (c_recast_y Px Py Pw co ci S HP GeneralConv v HSk). cbn [rbind].
        unfold partner_missing, serial. apply Nat.eqb_neq in E1. rewrite E1, !andb_false_r. reflexivity.
      * intros v H1 H2 H3. unfold general_conv_by. now rewrite inactive_test.
Qed.

(** Only products with zeros are left out. *)
Section Exact.
  Context {R : CRing}.
  Add Ring R_ring : (rth R).

  Lemma kept_sum (l : list (bool * term R)) l' : (forall m t, In (m, t) l -> m = true -> exact_term t = rzero) -> kept l l' ->
    sumf l' exact_term = sumf l (fun p => exact_term (snd p)).
  Proof.
    intros H K. induction K as [|m t l l' K IH|t l l' K IH]; [reflexivity| |]; rewrite !sumf_cons, IH by (intros; eapply H; [right|]; eauto); cbn [snd].
    - reflexivity.
    - rewrite (H true t (or_introl eq_refl) eq_refl). ring.
  Qed.

  Lemma conv_marks w groups cin cout (X W : tensor R) bias b' c' o m t :
    In (m, t) (conv_terms w groups cin cout X W bias b' c' o) -> m = true -> exists a, t = Prod rzero a.
  Proof.
    unfold conv_terms. rewrite in_app_iff, in_flat_map. intros [(k & _ & H)|H] ->.
    - apply in_map_iff in H as (q & E & _). inversion E as [[E1 E2]]. apply negb_true_iff in E1. unfold value_at. rewrite E1. eauto.
    - destruct bias; [destruct H as [H|[]]; discriminate|destruct H].
  Qed.

  Lemma conv_marks_zero w groups cin cout (X W : tensor R) bias b' c' o m t :
    In (m, t) (conv_terms w groups cin cout X W bias b' c' o) -> m = true -> exact_term t = rzero.
  Proof. intros H E. destruct (conv_marks _ _ _ _ _ _ _ _ _ _ _ _ H E) as [a ->]. cbn [exact_term]. ring. Qed.

  Lemma sumf_map_terms {A B} (f : A -> B) (g : B -> R) l : sumf (map f l) g = sumf l (fun a => g (f a)).
  Proof. induction l as [|a l IH]; [reflexivity|]. cbn [map]. rewrite !sumf_cons. now rewrite IH. Qed.
  Lemma sumf_flat_map {A B} (f : A -> list B) (g : B -> R) l : sumf (flat_map f l) g = sumf l (fun a => sumf (f a) g).
  Proof. induction l as [|a l IH]; [reflexivity|]. cbn [flat_map]. rewrite sumf_app, sumf_cons. now rewrite IH. Qed.

  Lemma conv_terms_sum w groups cin cout (X W : tensor R) bias b' c' o :
    sumf (conv_terms w groups cin cout X W bias b' c' o) (fun p => exact_term (snd p)) =
    conv_kernel w cout groups W bias cin c' (fun ch t => value_at X rzero (b' :: ch :: window_at w o t)).
  Proof.
    unfold conv_terms, conv_kernel. rewrite sumf_app. f_equal.
    - rewrite sumf_flat_map. apply sumf_ext. intros k _. rewrite sumf_map_terms. apply sumf_ext. intros t _. cbn [snd exact_term]. ring.
    - destruct bias; [|reflexivity]. rewrite sumf_cons, sumf_nil. cbn [snd exact_term]. ring.
  Qed.
End Exact.

Lemma C70_exact_proof : C70_exact_statement.
Proof.
  intros R w groups cin cout X W bias b xs ys Y (A1 & A2 & A3 & A4 & A5 & A6 & A7 & A8 & A9 & A10 & A11 & A12 & A13) [SY VY].
  exists b, cin, xs, ys. repeat (split; [auto; fail|]). intros b' c' o Hq. destruct (VY b' c' o Hq) as (l & K & E).
  apply evaluates_exact in E. rewrite E, (kept_sum _ _ (fun m t Hin Em => conv_marks_zero _ _ _ _ _ _ _ _ _ _ m t Hin Em) K).
  rewrite conv_terms_sum. unfold window_at. rewrite A8. reflexivity.
Qed.

Theorem C70_channel_conv : C70_channel_statement.
Proof. exact C70_channel_proof. Qed.
Theorem C70_general_conv : C70_general_statement.
Proof. exact C70_general_proof. Qed.
Theorem C70_exact : C70_exact_statement.
Proof. exact C70_exact_proof. Qed.

(** * Examples

    For every machine there is a torch layer that only fails to promise an order: the
    workers of even number add from the left and leave out the padding. *)
Section Orders.
  Context {R : CRing}.
  Variable M : machine R.
  Definition alternate_marked (v : Z) (l : list (bool * term R)) : R :=
    alternate_terms M v (if Z.even v then map snd (filter (fun p => negb (fst p)) l) else map snd l).
  Lemma kept_all (l : list (bool * term R)) : kept l (map snd l).
  Proof. induction l as [|[m t] l IH]; constructor; auto. Qed.
  Lemma kept_none (l : list (bool * term R)) : kept l (map snd (filter (fun p => negb (fst p)) l)).
  Proof. induction l as [|[[|] t] l IH]; cbn; constructor; auto. Qed.
  Lemma alternate_marked_ok v l : may_evaluate M l (alternate_marked v l).
  Proof.
    unfold alternate_marked. eexists. split; [|apply alternate_terms_ok]. destruct (Z.even v); [apply kept_none|apply kept_all].
  Qed.

  Definition alternate_conv (w : window) (groups : Z) (v : Z) (padded : bool) (W : tensor R) (bias : option (tensor R)) (X : tensor R) : result (tensor R) :=
    let w' := if padded then w else bare w in
    match tshape X, tshape W with
    | b :: cin :: xs, cout :: _ =>
        Ok (mkt (b :: cout :: compute_out_shape xs w') (fun q => match q with
          | b' :: c' :: o => alternate_marked v (conv_terms w' groups cin cout X W bias b' c' o)
          | _ => rzero end))
    | _, _ => Raise ErrTorch
    end.
  Lemma alternate_conv_ok w groups : window_ok (length (w_kernel w)) w -> torch_conv_by M w groups (alternate_conv w groups).
  Proof.
    intros Hw v padded cin cout X W bias b xs ys w' (A1 & A2 & A3 & A4 & A5 & A6 & A7 & A8 & A9 & A10 & A11 & A12 & A13).
    unfold alternate_conv. fold w'. rewrite A7, A12. eexists. split; [reflexivity|]. split.
    - cbn [tshape]. do 2 f_equal. destruct A10 as [Ly Cy]. unfold compute_out_shape. apply list_eq_nth with (d := 0); rewrite vec_length; [auto|].
      intros k Hk. rewrite vec_nth by auto. assert (Hk' : (k < length (w_kernel w))%nat) by (replace (w_kernel w) with (w_kernel w') by (unfold w'; destruct padded; reflexivity); lia).
      specialize (Cy k ltac:(lia)).
      assert (Hs : 0 < nth k (w_stride w') 0) by (destruct (window_nth _ _ k Hw Hk') as (_ & B & _); unfold w'; destruct padded; exact B).
      rewrite Forall_forall in A11. assert (0 < nth k ys 0) by (apply A11, nth_In; lia).
      destruct Cy as [C1 C2]. set (e := out_extent _ _ _ _ _).
      assert (Fe : forall o, 0 <= o -> (o < e <-> o < nth k ys 0)) by (intros o Ho; rewrite C2 by auto; unfold e; now apply out_extent_count).
      pose proof (proj2 (Fe 0 ltac:(lia)) ltac:(lia)). pose proof (Fe e ltac:(lia)). pose proof (Fe (nth k ys 0) ltac:(lia)). lia.
    - intros b' c' o _. apply alternate_marked_ok.
  Qed.
End Orders.

(** C33's layers with the machine of C61. *)
Example C70_channel_example :
  adds ex61_M (alternate ex61_M) /\ torch_conv_by ex61_M ex33_win 1 (alternate_conv ex61_M ex33_win 1) /\
  distributed_conv ex33_x ex33_y ex33_w 3 2 [1] ex33_win 1 3 5 ex33_X ex33_W (Some ex33_b) 2 [4] [4] ex33_weight ex33_bias /\
  holds_blocks ex33_x (balanced [2; 3; 4] [1; 2; 1]) ex33_X ex33_in /\ others_pass ex33_x ex33_y ex33_w ex33_in /\
  let y := channel_conv_by (alternate ex61_M) (alternate_conv ex61_M ex33_win 1) ex33_x ex33_y ex33_w true (fun _ => 0) (fun _ => 0)
             (fun _ => true) (fun _ => true) ex33_weight ex33_bias ex33_in in
  tshape (val (y 7)) = [2; 2; 4] /\ tat (val (y 7)) [1; 1; 3] = 43504 /\ tat ex33_Y [1; 3; 3] = 43546 /\ tshape (val (y 3)) = [2; 0] /\ y 8 = Ok (ex33_in 8).
Proof.
  destruct C33_channel_example as (HL & HE & HH & HB & HO & _).
  split; [apply alternate_adds|]. split; [apply alternate_conv_ok; apply HL|]. split.
  { pose proof HL as (B1 & B2 & B3 & B4 & B5 & B6 & B7 & B8 & B9 & B10 & (b & xs & B11 & _) & (b0 & c & xs' & ys & B12 & B13 & B14 & B15)).
    inversion B11; subst. inversion B12; subst. inversion B13; subst.
    split; [exact B1|]. split; [exact B2|]. split; [exact B3|]. do 2 (split; [lia|]). split; [|split; [exact HE|exact HH]].
    split; [lia|]. split; [exact B8|]. split; [exact B7|]. do 3 (split; [lia|]). split; [reflexivity|]. split; [reflexivity|].
    split; [repeat constructor; lia|]. split; [exact B14|]. split; [apply B15|]. split; [exact B9|exact B10]. }
  split; [exact HB|]. split; [exact HO|]. cbv zeta. repeat split; vm_compute; reflexivity.
Qed.

Definition ex70_out (v : Z) : result (tensor Zring) :=
  general_conv_by (alternate ex61_M) (alternate_conv ex61_M gc_win 1) gc_x gc_y gc_w gc_win true (fun _ => 0) (fun _ => 0) (fun _ => 0) (fun _ => 0)
    (fun _ => true) (fun _ => true) (fun _ => true) (fun _ => true) gc_weight gc_bias gc_shape gc_in gc_run v.

Example C70_general_example :
  torch_conv_by ex61_M gc_win 1 (alternate_conv ex61_M gc_win 1) /\
  distributed_conv gc_x gc_y gc_w 2 2 [2] gc_win 1 3 4 gc_X gc_W (Some gc_b) 1 [8] [8] gc_weight gc_bias /\
  feature_given gc_world gc_x gc_L gc_win /\ holds_blocks gc_x gc_L gc_X gc_in /\ others_pass gc_x gc_y gc_w gc_in /\
  within gc_L gc_win [1; 3; 8] /\
  map (fun v => tshape (val (ex70_out v))) [0; 3; 4; 5; 8] = [[1; 2; 4]; [1; 0]; [1; 2; 4]; [1; 2; 4]; [1; 2; 4]] /\
  map (tat (val (ex70_out 8))) (indices [1; 2; 4]) = [31280; 31984; 32192; 32384; 41728; 42720; 42992; 43280] /\
  map (tat gc_Y) [[0; 2; 0]; [0; 2; 1]; [0; 2; 2]; [0; 2; 3]; [0; 3; 0]; [0; 3; 1]; [0; 3; 2]; [0; 3; 3]] =
    [31296; 32013; 32220; 32427; 41755; 42742; 43030; 43318].
Proof.
  destruct C33_general_example as (HL & HE & HH & HG & HB & HO & HW & _).
  split; [apply alternate_conv_ok; apply HL|]. split.
  { pose proof HL as (B1 & B2 & B3 & B4 & B5 & B6 & B7 & B8 & B9 & B10 & (b & xs & B11 & _) & (b0 & c & xs' & ys & B12 & B13 & B14 & B15)).
    inversion B11; subst. inversion B12; subst. inversion B13; subst.
    split; [exact B1|]. split; [exact B2|]. split; [exact B3|]. do 2 (split; [lia|]). split; [|split; [exact HE|exact HH]].
    split; [lia|]. split; [exact B8|]. split; [exact B7|]. do 3 (split; [lia|]). split; [reflexivity|]. split; [reflexivity|].
    split; [repeat constructor; lia|]. split; [exact B14|]. split; [apply B15|]. split; [exact B9|exact B10]. }
  split; [exact HG|]. split; [exact HB|]. split; [exact HO|]. split; [exact HW|]. repeat split; vm_compute; reflexivity.
Qed.

Print Assumptions C70_channel_conv.
Print Assumptions C70_general_conv.
Print Assumptions C70_exact.
