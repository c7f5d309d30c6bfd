(** Proofs about the upsampling layer: its halo exchange and its output. *)

From Coq Require Import QArith Qcanon.
From Verif Require Import Prelude SpecIndex SpecLayout SpecPartition SpecHalo ModelSlicing ModelDecomposition
  ModelPartition ProofSlicing ProofDecomposition ProofPartition PropDecomposition Ring Tensor ModelCollectives PropExchange
  ModelUtilities PropUtilities Blocks ModelRepartition PropRepartition ModelHaloMixin ProofHaloMixin ModelHaloExchange
  PropHaloExchange ModelFeatureLayer ProofFeatureLayer ModelInterpolate ProofInterpolate PropInterpolate ModelScalars ModelUpsample
  SpecInterpolate ProofUpsample ProofUpsampleLayer PropUpsample.
Local Open Scope Z_scope.

(** * The value of the kernel *)

Section Value.
  Context {R : CRing}.
  Add Ring R_value : (rth R).

  Definition scaled (w : option R) (a : R) : R := match w with Some w => rmul w a | None => a end.

  Lemma scaled_times w w' a : scaled (times w w') a = scaled w (scaled w' a).
  Proof. destruct w, w'; cbn [times scaled]; auto. ring. Qed.

  Lemma scaled_sumf {B} (w : option R) (l : list B) f : scaled w (sumf l f) = sumf l (fun b => scaled w (f b)).
  Proof. destruct w; cbn [scaled]; auto. now rewrite sumf_mul_l. Qed.

  Variable pick : kdim -> Z -> list (option R * Z).

  (** Nested sums over the dimensions [ks]. *)
  Fixpoint nested (ks : list kdim) (q : list Z) (f : list Z -> R) : R :=
    match ks, q with
    | k :: ks', o :: q' => sumf (pick k o) (fun v => scaled (fst v) (nested ks' q' (fun t => f (snd v :: t))))
    | _, _ => f []
    end.

  Lemma nested_ext ks : picks_inside pick -> Forall (fun k => 0 < n_in k) ks -> forall q f f', length q = length ks ->
    (forall t, valid_index (map n_in ks) t -> f t = f' t) -> nested ks q f = nested ks q f'.
  Proof.
    intros HP Hk. induction Hk as [|k ks Hk Hks IH]; intros q f f' Hq Hf.
    - cbn [nested]. destruct q; apply Hf; constructor.
    - destruct q as [|o q]; [discriminate|]. cbn [nested]. apply sumf_ext. intros v Hv. f_equal.
      injection Hq as Hq. apply IH; auto. intros t Ht. apply Hf. cbn [map]. constructor; auto.
      destruct (HP k o Hk) as [_ F]. rewrite Forall_forall in F. now apply F.
  Qed.

  Lemma expand_nested src ks : forall q terms, length q = length ks ->
    sumf (expand pick ks q terms) (tvalue src) =
    sumf terms (fun u => scaled (fst u) (nested ks q (fun t => src (cartesian_c_loop (snd u) (map n_in ks) t)))).
  Proof.
    induction ks as [|k ks IH]; intros q terms Hq.
    - destruct q; [|discriminate]. reflexivity.
    - destruct q as [|o q]; [discriminate|]. injection Hq as Hq. cbn [expand nested]. rewrite IH by auto.
      unfold extend. rewrite sumf_flat_map. apply sumf_ext. intros u _. rewrite sumf_map, scaled_sumf. apply sumf_ext.
      intros v _. cbn [fst snd]. rewrite scaled_times. reflexivity.
  Qed.
End Value.

(** The forward kernel on a whole local tensor. *)
Section Forward.
Context {R : CRing}.
Add Ring R_forward : (rth R).

Lemma forward_value (A : scalars) (weight : scalar A -> R) (mode : imode A) nb nc xs ys
    x_start x_stop x_global y_start y_stop y_global (x : tensor R) :
  local_shapes nb nc xs ys x_start x_stop y_start y_stop -> tshape x = nb :: nc :: xs ->
  exists y, interpolate_forward A weight mode x_start x_global y_start y_stop y_global x = Ok y /\
    tshape y = nb :: nc :: ys /\
    forall b c q, valid_index (nb :: nc :: ys) (b :: c :: q) ->
      tat y (b :: c :: q) =
      nested (pick_of A weight mode)
        (feature_dims (length (nb :: nc :: xs))
           (kernel_dim (nb :: nc :: xs) x_start x_global (nb :: nc :: ys) y_start y_global)) q
        (fun t => tat x (b :: c :: t)).
Proof.
  intros (HL & HY & PX & PY & EX & EY) Sx.
  unfold interpolate_forward. rewrite EY, Sx.
  set (dim := kernel_dim (nb :: nc :: xs) x_start x_global (nb :: nc :: ys) y_start y_global).
  destruct (threads_all A weight mode false (nb :: nc :: xs) dim) as (tf & E1 & F1); [cbn [length]; lia|].
  rewrite E1, F1. eexists. split; [reflexivity|]. split; [reflexivity|]. intros b c q Hq.
  assert (Hk : map n_in (feature_dims (length (nb :: nc :: xs)) dim) = xs)
    by (apply (kdims_in nb nc xs dim HL); intros d Hd; reflexivity).
  assert (Ho : map n_out (feature_dims (length (nb :: nc :: xs)) dim) = ys)
    by (apply (kdims_out nb nc xs ys dim HL HY); intros d Hd; reflexivity).
  assert (Hp : Forall (fun k => 0 < n_in k) (feature_dims (length (nb :: nc :: xs)) dim)).
  { apply (kdims_pos nb nc xs dim HL PX). intros d Hd. reflexivity. }
  set (ks := feature_dims (length (nb :: nc :: xs)) dim) in *. cbn [nth].
  change (kernel_group false) with (@fwd_group R). unfold of_memory. cbn [tat].
  pose proof Hq as Hq0. apply valid_index_cons_inv in Hq0 as (b0 & q0 & Eq0 & Hb & Hq1). injection Eq0 as <- <-.
  apply valid_index_cons_inv in Hq1 as (c0 & q0 & Eq0 & Hc & Hq2). injection Eq0 as <- <-.
  assert (Lq : length q = length ks) by (rewrite (valid_index_length _ _ Hq2), <- Ho; apply map_length).
  assert (Ea : cartesian_index_c (nb :: nc :: ys) (b :: c :: q) = cartesian_c_loop (b * nc + c) ys q) by reflexivity.
  rewrite Ea.
  assert (In1 : In (cartesian_c_loop (b * nc + c) ys q, expand (pick_of A weight mode) ks q [(None, b * nc + c)])
                   (all_groups (pick_of A weight mode) (nb * nc) ks)).
  { rewrite all_groups_indices. apply in_map_iff. exists ((b * nc + c) :: q). cbn [hd tl]. rewrite Ho. split; auto.
    apply in_indices. constructor; auto. nia. }
  rewrite (proj2 (run_fwd _ (memory x) ltac:(apply Forall_forall; intros g Hg;
      apply (all_groups_bounds (pick_of A weight mode) (nb * nc) ks) in Hg; auto using pick_inside; tauto)
      (all_groups_nodup _ _ _) _ _) _ In1).
  rewrite expand_nested by auto. rewrite sumf_cons, sumf_nil. cbn [fst snd scaled]. replace (radd _ rzero) with (nested (pick_of A weight mode) ks q (fun t => memory x (cartesian_c_loop (b * nc + c) (map n_in ks) t))) by ring.
  apply nested_ext; auto using pick_inside. intros t Ht. rewrite Hk in *.
  unfold memory. rewrite Sx. f_equal.
  assert (V : valid_index (nb :: nc :: xs) (b :: c :: t)) by (constructor; auto; constructor; auto).
  transitivity (cart_coords (nb :: nc :: xs) (row_major (nb :: nc :: xs) (b :: c :: t))).
  - f_equal. rewrite <- cartesian_index_c_row_major by (now apply valid_index_length). reflexivity.
  - now apply cart_coords_row_major.
Qed.
End Forward.

(** * Padding *)

Section Padding.
  Context {R : CRing}.

  Lemma sum_nonneg_zero l j : Forall (fun z => 0 <= z) l -> zsum l = 0 -> nth j l 0 = 0.
  Proof.
    intros Nn. revert j. induction Nn as [|z l Hz Nn IH]; intros j E; [now destruct j|].
    assert (0 <= zsum l) by (clear - Nn; induction Nn; cbn [zsum fold_right] in *; [lia|]; fold (zsum l) in *; lia).
    cbn [zsum fold_right] in E. fold (zsum l) in E. destruct j; cbn [nth]; [lia|apply IH; lia].
  Qed.

  Lemma pad_if_needed (value : R) (total : list (Z * Z)) (x : tensor R) :
    length total = length (tshape x) -> Forall (fun p => 0 <= fst p /\ 0 <= snd p) total ->
    exists t,
      (if zsum (map (fun p => fst p + snd p) total) =? 0 then Ok x
       else match f_pad value (distdl_padding_to_torch_padding total) (length (tshape x)) x with
            | Some t => Ok t
            | None => Raise ErrTorch
            end) = Ok t /\
      tshape t = map2 (fun n p => n + fst p + snd p) (tshape x) total /\
      forall p, valid_index (tshape x) p -> tat t (vadd (map fst total) p) = tat x p.
  Proof.
    intros Hl Hn.
    destruct (Z.eqb_spec (zsum (map (fun p => fst p + snd p) total)) 0) as [E|E].
    - exists x. split; auto.
      assert (Z0 : forall j, (j < length total)%nat -> nth j total (0, 0) = (0, 0)).
      { intros j Hj. assert (Zj : nth j (map (fun p : Z * Z => fst p + snd p) total) 0 = 0).
        { apply sum_nonneg_zero; auto. apply Forall_map. eapply Forall_impl; [|exact Hn]. cbv beta. intros; lia. }
        change 0 with ((fun p : Z * Z => fst p + snd p) (0, 0)) in Zj at 1. rewrite map_nth in Zj.
        rewrite Forall_forall in Hn. pose proof (Hn _ (nth_In total (0, 0) Hj)). destruct (nth j total (0, 0)). cbn [fst snd] in *.
        f_equal; lia. }
      split.
      + apply list_eq_nth with (d := 0); [rewrite map2_length; lia|]. intros j Hj.
        rewrite map2_nth with (da := 0) (db := (0, 0)) by lia. rewrite Z0 by lia. cbn [fst snd]. lia.
      + intros p Hp. f_equal. pose proof (valid_index_length _ _ Hp) as El. unfold vadd.
        apply list_eq_nth with (d := 0); [rewrite map2_length; rewrite map_length; lia|]. intros j Hj.
        rewrite map2_length in Hj by (rewrite map_length; lia). rewrite map_length in Hj.
        rewrite map2_nth with (da := 0) (db := 0) by (rewrite ?map_length; lia).
        change 0 with (fst (0, 0)) at 1. rewrite map_nth, Z0 by lia. cbn [fst]. lia.
    - destruct (C42_proof R value total x Hl) as (t & E1 & E2 & E3). exists t. rewrite E1. split; auto. split; auto.
      intros p Hp. pose proof (valid_index_length _ _ Hp) as El.
      assert (Lv : length (vadd (map fst total) p) = length total) by (unfold vadd; rewrite map2_length; rewrite map_length; lia).
      rewrite E3 by lia. cbn [padded tat].
      assert (Eq : map2 (fun (k : Z) (q : Z * Z) => k - fst q) (vadd (map fst total) p) total = p).
      { apply list_eq_nth with (d := 0); [rewrite map2_length; lia|]. intros j Hj. rewrite map2_length in Hj by lia.
        rewrite map2_nth with (da := 0) (db := (0, 0)) by lia. unfold vadd.
        rewrite map2_nth with (da := 0) (db := 0) by (rewrite ?map_length; lia).
        change 0 with (fst (0, 0)) at 1. rewrite map_nth. lia. }
      rewrite Eq, padded_test by lia. now rewrite (proj2 (inside_spec (tshape x) p)).
  Qed.
End Padding.

(** * The plan of the halo exchange *)

Section Plan.
  Variables (P : part) (a : upsample_args exact_types) (X Y : list Z).
  Hypothesis HU : usable P a X Y.
  Let Ps := p_shape P.
  Let L := balanced X Ps.

  Definition up_halo (j : nat) (i : Z) : Z * Z :=
    (Z.max (fst (dim_halo P a X Y j i)) 0, Z.max (snd (dim_halo P a X Y j i)) 0).
  Definition up_halos : halos := vec (length X) (fun j => map (up_halo j) (zrange (nth j (p_shape P) 0))).

  Lemma up_len : length X = length Ps. Proof. exact (us_len _ _ _ _ HU). Qed.
  Lemma up_L : length L = length X.
  Proof. pose proof up_len. unfold L, balanced. rewrite map2_length; lia. Qed.
  Lemma up_H : length up_halos = length X.
  Proof. apply vec_length. Qed.
  Lemma up_L_nth j : (j < length X)%nat -> nth j L [] = balanced1 (nth j X 0) (nth j Ps 0).
  Proof. intros Hj. pose proof up_len. unfold L, balanced. now rewrite map2_nth with (da := 0) (db := 0) by lia. Qed.

  Section Dim.
    Variable j : nat.
    Hypothesis Hj : (j < length X)%nat.
    Let p := nth j Ps 0.
    Let n := nth j X 0.

    Lemma up_p : 0 < p. Proof. exact (us_pspos P a X Y HU j Hj). Qed.
    Lemma up_n : 0 < n. Proof. exact (us_Xpos P a X Y HU j Hj). Qed.

    Lemma up_at i : 0 <= i < p -> halo_at (nth j up_halos []) i = up_halo j i.
    Proof.
      intros H. unfold up_halos. rewrite vec_nth by auto. unfold halo_at. erewrite nth_error_nth; [reflexivity|].
      erewrite map_nth_error; [|apply zrange_nth_error; unfold p, Ps in *; lia]. now rewrite Z2Nat.id by lia.
    Qed.
    Lemma up_out i : p <= i -> halo_at (nth j up_halos []) i = (0, 0).
    Proof.
      intros H. unfold up_halos. rewrite vec_nth by auto. unfold halo_at. apply nth_overflow. rewrite map_length, zrange_length.
      pose proof up_p. unfold p, Ps in *. lia.
    Qed.

    Lemma up_mono i : 0 <= i -> i + 1 < p ->
      dim_first P a X Y j i <= dim_first P a X Y j (i + 1) /\ dim_last P a X Y j i <= dim_last P a X Y j (i + 1).
    Proof.
      intros Hi Hi1. pose proof (us_ne P a X Y HU j i Hj ltac:(unfold p, Ps in *; lia)) as N1.
      pose proof (us_ne P a X Y HU j (i + 1) Hj ltac:(unfold p, Ps in *; lia)) as N2. pose proof (us_Ypos P a X Y HU j Hj) as Yp.
      fold Ps p in N1, N2. 
      destruct (is_feature j) eqn:Hf.
      - assert (Hs : sensible (method_of (python_mode a : imode exact)) (nth j X 0) (nth j Y 0)).
        { apply (us_sensible _ _ _ _ HU). unfold is_feature in Hf. apply Nat.leb_le in Hf. lia. }
        rewrite !first_exact, !last_exact by (auto; unfold p, Ps in *; lia). fold Ps p.
        pose proof (first_read_mono _ _ _ Hs (start1 p i (nth j Y 0)) (start1 p (i + 1) (nth j Y 0)) ltac:(lia)).
        pose proof (first_read_mono _ _ _ Hs (start1 p (i + 1) (nth j Y 0) - 1) (start1 p (i + 1 + 1) (nth j Y 0) - 1) ltac:(lia)).
        lia.
      - unfold is_feature in Hf. apply Nat.leb_gt in Hf.
        destruct (us_other P a X Y HU j i Hj ltac:(unfold p, Ps in *; lia) Hf) as (-> & -> & _).
        destruct (us_other P a X Y HU j (i + 1) Hj ltac:(unfold p, Ps in *; lia) Hf) as (-> & -> & _). fold Ps p. lia.
    Qed.

    Lemma up_ok1 : dim_halos_ok (balanced1 n p) (nth j up_halos []).
    Proof.
      pose proof up_p as Hp. pose proof up_n as Hn. split; [|split; [|split]].
      - unfold up_halos. rewrite vec_nth by auto. rewrite map_length, zrange_length, balanced1_length. reflexivity.
      - unfold up_halos. rewrite vec_nth by auto. apply Forall_map, Forall_forall. intros i _. unfold up_halo. cbn [fst snd]. lia.
      - rewrite up_at by lia. unfold up_halo, dim_halo. cbn [fst]. fold Ps p n. rewrite start1_0 by lia.
        pose proof (us_first_last P a X Y HU j 0 Hj ltac:(unfold p, Ps in *; lia)). lia.
      - rewrite balanced1_length, Z2Nat.id by lia. rewrite up_at by lia. unfold up_halo, dim_halo. cbn [snd]. fold Ps p n.
        replace (p - 1 + 1) with p by lia. rewrite start1_P by lia.
        pose proof (us_first_last P a X Y HU j (p - 1) Hj ltac:(unfold p, Ps in *; lia)). fold n in H. lia.
    Qed.

    Lemma up_fit1 : dim_fits (balanced1 n p) (nth j up_halos []).
    Proof.
      pose proof up_p as Hp. pose proof up_n as Hn. intros i Hi Hi1. rewrite balanced1_length, Z2Nat.id in Hi1 by lia.
      rewrite !up_at by lia. rewrite !balanced1_nth by lia. unfold up_halo, dim_halo. cbn [fst snd]. fold Ps p n.
      pose proof (up_mono i Hi Hi1). rewrite (start1_step p (i + 1) n), (start1_step p i n) by lia.
      assert (S1 : 0 <= subshape1 p i n) by (apply subshape1_nonneg; lia).
      assert (S2 : 0 <= subshape1 p (i + 1) n) by (apply subshape1_nonneg; lia). lia.
    Qed.

    Definition near1 : Prop := forall i, 0 <= i < p ->
      (0 < i -> start1 p (i - 1) n <= dim_first P a X Y j i) /\ (i + 1 < p -> dim_last P a X Y j i <= start1 p (i + 2) n).

    Lemma up_narrow1 : near1 -> dim_narrow (balanced1 n p) (nth j up_halos []).
    Proof.
      intros HN. pose proof up_p as Hp. pose proof up_n as Hn. intros i Hi Hi1. rewrite balanced1_length, Z2Nat.id in Hi1 by lia.
      rewrite !up_at by lia. rewrite !balanced1_nth by lia. unfold up_halo, dim_halo. cbn [fst snd]. fold Ps p n.
      pose proof (proj1 (HN (i + 1) ltac:(lia)) ltac:(lia)) as N1. pose proof (proj2 (HN i ltac:(lia)) ltac:(lia)) as N2.
      replace (i + 1 - 1) with i in N1 by lia. replace (i + 2) with (i + 1 + 1) in N2 by lia.
      rewrite (start1_step p (i + 1) n) in N2 by lia. rewrite (start1_step p i n) in * by lia.
      assert (S1 : 0 <= subshape1 p i n) by (apply subshape1_nonneg; lia).
      assert (S2 : 0 <= subshape1 p (i + 1) n) by (apply subshape1_nonneg; lia). lia.
    Qed.
  End Dim.

  Lemma up_all (Q : list Z -> list (Z * Z) -> Prop) :
    (forall j, (j < length X)%nat -> Q (balanced1 (nth j X 0) (nth j Ps 0)) (nth j up_halos [])) -> Forall2 Q L up_halos.
  Proof.
    intros H. apply Forall2_nth with (da := []) (db := []). rewrite up_L, up_H. split; auto. intros j Hj. rewrite up_L_nth by auto. auto.
  Qed.

  Lemma up_halos_ok : halos_ok L up_halos. Proof. apply up_all. exact up_ok1. Qed.
  Lemma up_halos_fit : halos_fit L up_halos. Proof. apply up_all. exact up_fit1. Qed.
  Lemma up_halos_narrow : (forall j, (j < length X)%nat -> near1 j) -> halos_narrow L up_halos.
  Proof. intros H. apply up_all. intros j Hj. apply up_narrow1; auto. Qed.

  Lemma up_part : part_ok P. Proof. exact (us_part _ _ _ _ HU). Qed.
  Lemma up_pos : pos_shape Ps. Proof. apply up_part. Qed.

  Lemma up_idx idx : valid_index Ps idx -> length idx = length X.
  Proof. intros Hi. pose proof up_len. apply valid_index_length in Hi. lia. Qed.

  Lemma up_recv idx : valid_index Ps idx -> e_halo (info P a X Y idx) = recv_plan up_halos idx.
  Proof.
    intros Hi. pose proof (up_idx idx Hi) as El.
    assert (E1 : length (e_halo (info P a X Y idx)) = length X)
      by (unfold info, interpolate_exchange_info, interpolate_halo_shape; cbn [e_halo]; apply vec_length).
    apply list_eq_nth with (d := (0, 0)).
    - unfold recv_plan. rewrite map2_length; rewrite ?up_H; lia.
    - intros j Hj. rewrite E1 in Hj. rewrite recv_plan_nth by (rewrite up_H; lia).
      rewrite (info_halo P a X Y up_part (us_nonneg P a X Y HU) up_len (us_out _ _ _ _ HU) (us_Ynonneg P a X Y HU)) by auto.
      rewrite up_at; auto. now apply (us_valid_nth P a X Y HU).
  Qed.

  Lemma upd_inside idx j i : valid_index Ps idx -> (j < length X)%nat -> 0 <= i < nth j Ps 0 -> valid_index Ps (upd j i idx).
  Proof.
    intros Hi Hj Hb. pose proof (up_idx idx Hi) as El. apply valid_index_nth in Hi as [H1 H2].
    apply valid_index_nth. rewrite upd_length. split; auto. intros m Hm. destruct (Nat.eq_dec j m) as [->|Hne].
    - now rewrite upd_nth_eq by lia.
    - rewrite upd_nth_neq by auto. now apply H2.
  Qed.

  Lemma up_send idx : valid_index Ps idx -> e_send (info P a X Y idx) = send_plan up_halos idx.
  Proof.
    intros Hi. pose proof (up_idx idx Hi) as El. pose proof up_len as LX.
    unfold info, interpolate_exchange_info. cbn [e_send]. apply list_eq_nth with (d := (0, 0)).
    - rewrite vec_length. unfold send_plan. rewrite map2_length; rewrite ?up_H; unfold Ps in *; lia.
    - intros j Hj. rewrite vec_length in Hj. assert (HjX : (j < length X)%nat) by (unfold Ps in *; lia).
      rewrite vec_nth by lia. rewrite send_plan_nth by (rewrite up_H; lia).
      rewrite !upd_nth_eq by lia. pose proof (us_valid_nth P a X Y HU idx j Hi HjX) as Hb.
      assert (N : forall i, 0 <= i < nth j Ps 0 ->
        nth j (interpolate_halo_shape (f_python exact_types) (python_mode a) (p_shape P) X Y true (upd j i idx)) (0, 0) = up_halo j i).
      { intros i Hib. rewrite (halo_clipped P a X Y up_part (us_nonneg P a X Y HU) up_len (us_out _ _ _ _ HU) (us_Ynonneg P a X Y HU))
          by (auto; now apply upd_inside). now rewrite upd_nth_eq by lia. }
      f_equal.
      + destruct (Z.ltb_spec (-1) (nth j idx 0 - 1)), (Z.ltb_spec 0 (nth j idx 0)); try lia; auto.
        rewrite N by (unfold Ps in *; lia). rewrite up_at by (auto; unfold Ps in *; lia). reflexivity.
      + destruct (Z.ltb_spec (nth j idx 0 + 1) (nth j (p_shape P) 0)).
        * rewrite N by (unfold Ps in *; lia). rewrite up_at by (auto; unfold Ps in *; lia). reflexivity.
        * rewrite up_out by (auto; unfold Ps in *; lia). reflexivity.
  Qed.

  Lemma up_padded_shape idx : valid_index Ps idx -> exchanged_shape P a X Y idx = padded_shape L up_halos idx.
  Proof.
    intros Hi. pose proof (up_idx idx Hi) as El. unfold exchanged_shape, padded_shape, vadd, left_halo, right_halo.
    rewrite up_recv by auto. fold Ps. fold L.
    assert (E1 : length (recv_plan up_halos idx) = length X) by (unfold recv_plan; rewrite map2_length; rewrite ?up_H; lia).
    assert (E2 : length (block_shape L idx) = length X) by (rewrite block_shape_length; rewrite up_L; lia).
    apply list_eq_nth with (d := 0).
    - rewrite !map2_length; rewrite ?map2_length; rewrite ?map_length; lia.
    - intros j Hj. rewrite map2_length in Hj by lia.
      rewrite !map2_nth with (da := 0) (db := 0) by (rewrite ?map2_length; rewrite ?map_length; lia).
      rewrite map2_nth with (da := (0, 0)) (db := 0) by lia.
      change (nth j (map fst (recv_plan up_halos idx)) 0) with (nth j (map fst (recv_plan up_halos idx)) (fst (0, 0))).
      change (nth j (map snd (recv_plan up_halos idx)) 0) with (nth j (map snd (recv_plan up_halos idx)) (snd (0, 0))).
      rewrite !map_nth. reflexivity.
  Qed.
End Plan.
