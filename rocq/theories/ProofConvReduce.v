(** Lemmas about convolutions in machine arithmetic. *)

From Coq Require Import Sorting.Permutation.
From Verif Require Import Prelude SpecIndex SpecLayout SpecPartition SpecHalo ModelSlicing ModelDecomposition ModelPartition ProofSlicing
  ProofDecomposition ProofPartition Ring Tensor ModelCollectives ProofCollectives PropCollectives Blocks ModelUtilities P2P Rounds
  ModelRepartition ProofRepartition PropRepartition ModelHaloMixin ProofHaloMixin PropHaloMixin ModelHaloExchange PropHaloExchange
  ModelFeatureLayer SpecFeature ProofFeatureLayer PropFeatureLayer PropFeatureConv ModelLinear ProofWork PropLinear ModelConv ProofConv
  ProofConvParts PropConv PropConvChannel ModelReduce SpecSum ProofReduce PropReduce SpecConvSum ModelConvReduce.

Section Kept.
  Context {R : CRing}.
  Variable M : machine R.

  Lemma kept_app l1 l1' l2 l2' : @kept R l1 l1' -> kept l2 l2' -> kept (l1 ++ l2) (l1' ++ l2').
  Proof. induction 1; intros K; [exact K| |]; rewrite <- app_comm_cons; [rewrite <- app_comm_cons|]; constructor; auto. Qed.

  Lemma kept_marks l1 l2 l : Forall2 (fun a b : bool * term R => snd a = snd b /\ (fst a = true -> fst b = true)) l1 l2 -> kept l1 l -> kept l2 l.
  Proof.
    intros H. revert l. induction H as [|[m t] [m' t'] l1 l2 [E1 E2] H IH]; intros l K; [exact K|]. cbn [fst snd] in *. subst t'.
    inversion K; subst; [constructor; auto|]. rewrite E2 by auto. constructor; auto.
  Qed.

  Lemma kept_perm l1 l2 l : Permutation l1 l2 -> @kept R l1 l -> exists l', kept l2 l' /\ Permutation l l'.
  Proof.
    intros H. revert l. induction H as [|[m t] l1 l2 _ IH|[m t] [m' t'] l1|l1 l2 l3 _ IH1 _ IH2]; intros l K.
    - exists l. auto.
    - inversion K as [|? ? ? l' K'|? ? l' K']; subst; destruct (IH _ K') as (k & Hk & Hp).
      + exists (t :: k). split; [now constructor|auto].
      + exists k. split; [now constructor|auto].
    - inversion K as [|? ? ? k1 K1|? ? k1 K1]; subst; inversion K1 as [|? ? ? k2 K2|? ? k2 K2]; subst.
      + eexists. split; [do 2 apply kept_take; eassumption|constructor].
      + eexists. split; [apply kept_drop, kept_take; eassumption|auto].
      + eexists. split; [apply kept_take, kept_drop; eassumption|auto].
      + eexists. split; [do 2 apply kept_drop; eassumption|auto].
    - destruct (IH1 _ K) as (k & Hk & P1). destruct (IH2 _ Hk) as (k' & Hk' & P2). exists k'. split; [auto|]. now transitivity k.
  Qed.

  Lemma may_perm l1 l2 r : Permutation l1 l2 -> may_evaluate M l1 r -> may_evaluate M l2 r.
  Proof.
    intros P (l & K & E). destruct (kept_perm _ _ _ P K) as (l' & K' & P'). exists l'. split; [auto|]. now apply ev_order with l.
  Qed.
  Lemma may_marks l1 l2 r : Forall2 (fun a b : bool * term R => snd a = snd b /\ (fst a = true -> fst b = true)) l1 l2 ->
    may_evaluate M l1 r -> may_evaluate M l2 r.
  Proof. intros H (l & K & E). exists l. split; auto. now apply kept_marks with l1. Qed.

  (** In parts. *)
  Lemma may_parts {A} (l : list A) (ts : A -> list (bool * term R)) (vs : A -> R) r :
    (forall a, In a l -> may_evaluate M (ts a) (vs a)) -> evaluates M (map (fun a => Num (vs a)) l) r -> may_evaluate M (flat_map ts l) r.
  Proof.
    intros H1 H2.
    assert (K : exists qs : list (list (term R) * R), map snd qs = map vs l /\ kept (flat_map ts l) (concat (map fst qs)) /\
                forall p, In p qs -> evaluates M (fst p) (snd p)).
    { clear H2. induction l as [|a l IH]; [exists []; repeat split; [constructor|contradiction]|].
      destruct IH as (qs & Q1 & Q2 & Q3); [intros; apply H1; now right|]. destruct (H1 a (or_introl eq_refl)) as (k & K1 & K2).
      exists ((k, vs a) :: qs). cbn [map fst snd concat flat_map]. split; [now f_equal|]. split; [now apply kept_app|].
      intros p [<-|Hp]; [exact K2|auto]. }
    destruct K as (qs & Q1 & Q2 & Q3). exists (concat (map fst qs)). split; [exact Q2|]. apply evaluates_concat; auto.
    rewrite Q1, map_map. exact H2.
  Qed.
End Kept.

(** The version of [balanced_flat] for lists. *)
Lemma balanced_flat_map {A} (P n : Z) (F : Z -> list A) : 0 < P -> 0 <= n ->
  flat_map (fun i => flat_map (fun f => F (start1 P i n + f)) (zrange (subshape1 P i n))) (zrange P) = flat_map F (zrange n).
Proof.
  intros HP Hn. rewrite (flat_map_concat_map F), <- (balanced_flat P n F HP Hn). generalize (zrange P). intros l.
  induction l as [|i l IH]; [reflexivity|]. cbn [flat_map]. now rewrite concat_app, IH, flat_map_concat_map.
Qed.

Lemma flat_map_single {A} (f : Z -> list A) n : 0 < n -> (forall i, i <> 0 -> f i = []) -> flat_map f (zrange n) = f 0.
Proof.
  intros Hn H. replace n with (1 + (n - 1)) by lia. rewrite zrange_app, flat_map_app by lia. cbn [flat_map]. change (zrange 1) with [0]. cbn [flat_map].
  rewrite app_nil_r. rewrite <- (app_nil_r (f 0)) at 2. f_equal. rewrite flat_map_concat_map, map_map, <- flat_map_concat_map.
  enough (E : forall l, (forall x, In x l -> 0 <= x) -> flat_map (fun x => f (1 + x)) l = []).
  { apply E. intros x Hx. apply in_zrange in Hx. lia. }
  induction l as [|a l IH]; intros Hl; [reflexivity|]. cbn [flat_map]. rewrite H by (pose proof (Hl a (or_introl eq_refl)); lia).
  apply IH. intros x Hx. apply Hl. now right.
Qed.

Lemma eq_permutation {A} (l l' : list A) : l = l' -> Permutation l l'.
Proof. now intros ->. Qed.

Lemma Forall2_flat_map {A B} (r : B -> B -> Prop) (f g : A -> list B) l :
  (forall a, In a l -> Forall2 r (f a) (g a)) -> Forall2 r (flat_map f l) (flat_map g l).
Proof.
  induction l as [|a l IH]; intros H; [constructor|]. cbn [flat_map]. apply Forall2_app; [apply H; now left|].
  apply IH. intros; apply H. now right.
Qed.
Lemma Forall2_map_in {A B} (r : B -> B -> Prop) (f g : A -> B) l : (forall a, In a l -> r (f a) (g a)) -> Forall2 r (map f l) (map g l).
Proof. induction l as [|a l IH]; intros H; constructor; [apply H; now left|]. apply IH. intros; apply H. now right. Qed.

Section Layer.
  Context {R : CRing}.
  Variable M : machine R.
  Variables (Px Py Pw : part) (co ci : Z) (S : list Z) (w : window) (groups cin cout : Z).
  Variables (W : tensor R) (bias : option (tensor R)) (X Y0 : tensor R).
  Hypothesis HL : conv_layer Px Py Pw co ci S w groups cin cout W bias X Y0.
  Hypothesis HE : plain groups Px Py Pw.
  Variables (b : Z) (xs ys : list Z).
  Hypothesis EX : tshape X = b :: cin :: xs.
  Hypothesis Lxs : length xs = length (w_kernel w).
  Hypothesis EY0 : tshape Y0 = b :: cout :: ys.
  Let nk := length (w_kernel w).

  (** The terms that worker (j, i, s) of P_w adds. *)
  Definition share (j i : Z) (s : list Z) (b' c' : Z) (o : list Z) : list (bool * term R) :=
    let cg := start1 co j cout + c' in
    flat_map (fun k => map (fun t =>
        let g := b' :: cg / (cout / groups) * (cin / groups) + (start1 ci i (cin / groups) + k) :: read_point S w ys s o t in
        (negb (inside (tshape X) g), Prod (value_at X rzero g) (tat W (cg :: start1 ci i (cin / groups) + k :: t)))) (indices (w_kernel w)))
      (zrange (subshape1 ci i (cin / groups)))
    ++ (if i =? 0 then match bias with Some v => [(false, Num (tat v [cg]))] | None => [] end else []).

  Lemma l_facts : (0 < co <= cout) /\ (0 < ci <= cin) /\ 0 < groups /\ (groups | cout) /\ (groups | cin) /\
    (groups = 1 \/ co = 1 /\ ci = 1) /\ tshape W = cout :: cin / groups :: w_kernel w /\ 0 < cin / groups.
  Proof.
    destruct (k_pos _ _ _ _ _ _ _ _ _ _ _ _ _ _ HL) as (P1 & P2 & _).
    destruct (h_facts _ _ _ _ _ _ _ _ _ _ _ _ _ _ HL HE 0 0 ltac:(lia) ltac:(lia)) as (F1 & F2 & F3 & F4 & F5 & F6 & F7).
    assert (0 < cin / groups) by (destruct F5 as [q E]; rewrite E, Z.div_mul by lia; nia). intuition lia.
  Qed.
  Lemma l_seq : counts xs w ys /\ 0 < b /\ 0 < cin /\ Forall (fun n => 0 < n) ys /\ length ys = nk.
  Proof. exact (h_seq Px Py Pw co ci S w groups cin cout W bias X Y0 HL b xs ys EX Lxs EY0). Qed.

  Lemma shares j s b' c' o : valid_index S s -> length o = nk ->
    Permutation (flat_map (fun i => share j i s b' c' o) (zrange ci))
      (conv_terms w groups cin cout X W bias b' (start1 co j cout + c') (vadd (block_lo (balanced ys S) s) o)).
  Proof.
    intros Hs Ho. destruct l_facts as (F1 & F2 & F3 & F4 & F5 & F6 & F7 & F8). unfold share. cbv zeta.
    etransitivity; [apply flat_map_split|]. unfold conv_terms. apply Permutation_app.
    - rewrite <- (balanced_flat_map ci (cin / groups)) by lia. apply eq_permutation. rewrite !flat_map_concat_map. f_equal. apply map_ext. intros i.
      rewrite !flat_map_concat_map. f_equal. apply map_ext. intros k. apply map_ext. intros t. cbv zeta.
      assert (E : window_at w (vadd (block_lo (balanced ys S) s) o) t = read_point S w ys s o t); [|now rewrite E].
      destruct HL as (_ & HSl & _ & _ & _ & Hg & _ & _ & _ & _ & _ & HY). destruct (k_pos _ _ _ _ _ _ _ _ _ _ _ _ _ _ HL) as (_ & _ & P3).
      rewrite (part_block_lo S w groups cin cout b ys W X bias Y0 xs EX Lxs EY0 HY P3 HSl s o Hs Ho).
      unfold window_at, read_point, vec. apply map_ext_in. intros k' Hk. apply in_seq in Hk.
      change (map (fun i => start1 (nth i S 0) (nth i s 0) (nth i ys 0) + nth i o 0) (seq 0 (length (w_kernel w))))
        with (vec (length (w_kernel w)) (fun i => start1 (nth i S 0) (nth i s 0) (nth i ys 0) + nth i o 0)). rewrite vec_nth by lia. reflexivity.
    - rewrite flat_map_single; [reflexivity|lia|]. intros i Hi. destruct (Z.eqb_spec i 0); [contradiction|reflexivity].
  Qed.

  (** What a worker of P_w may compute. *)
  Definition share_by (j i : Z) (s : list Z) (z : tensor R) : Prop :=
    forall b' c' o, valid_index (part_shape co S w cout b ys j s) (b' :: c' :: o) -> may_evaluate M (share j i s b' c' o) (tat z (b' :: c' :: o)).

  Section Local.
    Variables (w' : window) (torch : tensor R -> option (tensor R) -> tensor R -> result (tensor R)).
    Variables (j i : Z) (s : list Z) (wt : tensor R) (bt : option (tensor R)) (t : tensor R) (es : list Z).
    Let yl := vec nk (fun k => subshape1 (nth k S 0) (nth k s 0) (nth k ys 0)).
    Hypothesis Ew : w_kernel w' = w_kernel w.
    Hypothesis Hj : 0 <= j < co.
    Hypothesis Hi : 0 <= i < ci.
    Hypothesis Hwt : teq wt (weight_block co ci w W j i).
    Hypothesis Hbt : match (if i =? 0 then bias_block co cout bias j else None), bt with
                     | Some v, Some v' => teq v' v
                     | None, None => True
                     | _, _ => False
                     end.
    Hypothesis Et : tshape t = b :: subshape1 ci i cin :: es.
    Hypothesis Les : length es = nk.
    Hypothesis Nes : nonneg_shape es.
    Hypothesis Ces : counts es w' yl.
    Hypothesis Pyl : Forall (fun n => 0 < n) yl.
    Hypothesis HT : forall cin cout X W bias b xs ys, conv_arguments w' groups cin cout X W bias b xs ys ->
      exists Y, torch W bias X = Ok Y /\ conv_by M w' groups cin cout X W bias b ys Y.
    Hypothesis Hread : forall b' ch o q, 0 <= b' < b -> 0 <= ch < subshape1 ci i cin -> valid_index yl o -> valid_index (w_kernel w) q ->
      let p := b' :: ch :: window_at w' o q in
      let g := b' :: start1 ci i cin + ch :: read_point S w ys s o q in
      value_at t rzero p = value_at X rzero g /\ (inside (tshape t) p = false -> inside (tshape X) g = false).

    Lemma local_arguments : conv_arguments w' groups (subshape1 ci i cin) (subshape1 co j cout) t wt bt b es yl.
    Proof.
      destruct l_facts as (F1 & F2 & F3 & F4 & F5 & F6 & F7 & F8). destruct l_seq as (_ & Hb & _).
      destruct (local_cout co ci w groups cin cout W F1 F3 F4 F5 F6 F7 j Hj) as [A1 A2].
      pose proof (local_cin co ci w groups cin cout W F2 F3 F4 F5 F6 F7 i Hi) as A3.
      pose proof (local_groups co ci w groups cin cout W F2 F3 F4 F5 F6 F7 i Hi) as A4.
      pose proof (h_wt Px Py Pw co ci S w groups cin cout W bias X Y0 HL j i wt Hj Hi Hwt) as A5.
      split; [exact F3|]. split; [exists (subshape1 ci i (cin / groups)); lia|]. split; [exact A2|]. split; [apply subshape1_pos; lia|].
      split; [exact A1|]. split; [exact Hb|]. split; [exact Et|]. split; [rewrite Ew; exact Les|]. split; [exact Nes|]. split; [exact Ces|].
      split; [exact Pyl|]. split; [rewrite A4, Ew; exact A5|].
      destruct (i =? 0); [|destruct bt; [contradiction|exact I]]. unfold bias_block in Hbt. destruct bias as [v|], bt as [v'|]; auto; try contradiction.
      destruct Hbt as [-> _]. cbn [block tshape]. unfold balanced, block_shape. cbn [map2]. now rewrite balanced1_nth.
    Qed.

    Lemma local_terms b' c' o : 0 <= b' < b -> 0 <= c' < subshape1 co j cout -> valid_index yl o ->
      Forall2 (fun a a' : bool * term R => snd a = snd a' /\ (fst a = true -> fst a' = true))
        (conv_terms w' groups (subshape1 ci i cin) (subshape1 co j cout) t wt bt b' c' o) (share j i s b' c' o).
    Proof.
      intros Hb' Hc' Ho. destruct l_facts as (F1 & F2 & F3 & F4 & F5 & F6 & F7 & F8).
      destruct (local_cout co ci w groups cin cout W F1 F3 F4 F5 F6 F7 j Hj) as [A1 A2].
      pose proof (local_groups co ci w groups cin cout W F2 F3 F4 F5 F6 F7 i Hi) as A4.
      pose proof (h_wt Px Py Pw co ci S w groups cin cout W bias X Y0 HL j i wt Hj Hi Hwt) as A5.
      pose proof (start1_sub_le co j cout ltac:(lia) ltac:(lia) Hj) as Bj.
      unfold conv_terms, share. rewrite Ew. apply Forall2_app.
      - rewrite A4. apply Forall2_flat_map. intros k Hk. apply in_zrange in Hk. apply Forall2_map_in. intros q Hq. apply in_indices in Hq. cbv zeta.
        pose proof (valid_index_length _ _ Hq) as Lq.
        pose proof (group_channel (subshape1 co j cout) groups ltac:(lia) ltac:(lia) A2 (subshape1 ci i cin) c' k Hc' ltac:(rewrite A4; lia)) as Rc.
        rewrite A4 in Rc.
        destruct (Hread b' _ o q Hb' Rc Ho Hq) as [V1 V2]. cbv zeta in V1, V2. cbn [fst snd].
        assert (Ec : start1 ci i cin + (c' / (subshape1 co j cout / groups) * subshape1 ci i (cin / groups) + k) =
                     (start1 co j cout + c') / (cout / groups) * (cin / groups) + (start1 ci i (cin / groups) + k)).
        { destruct F6 as [E|[E1 E2]].
          - rewrite E, !Z.div_1_r, !Z.div_small by lia. lia.
          - rewrite E1, E2 in *. assert (j = 0) by lia. assert (i = 0) by lia. subst j i. rewrite !unit_sub, !start1_0 by lia. rewrite !Z.add_0_l. lia. }
        rewrite Ec in V1, V2. split.
        + f_equal; [exact V1|]. destruct Hwt as [_ Vw]. rewrite Vw.
          * apply weight_block_at with (groups := groups) (cin := cin); auto.
          * rewrite A5. apply valid_index_cons. split; [lia|]. apply valid_index_cons. split; [lia|]. exact Hq.
        + rewrite !negb_true_iff. exact V2.
      - destruct (i =? 0); [|destruct bt; [contradiction|constructor]]. unfold bias_block in Hbt.
        destruct bias as [v|], bt as [v'|]; try contradiction; [|constructor]. constructor; [|constructor]. cbn [fst snd]. split; [|auto]. f_equal.
        destruct Hbt as [Sv Vv]. rewrite Vv.
        + cbn [block tat]. f_equal. unfold block_lo, balanced, vadd. cbn [map2]. now rewrite balanced1_prefix by lia.
        + rewrite Sv. cbn [block tshape]. unfold balanced, block_shape. cbn [map2]. rewrite balanced1_nth by auto. apply valid_index_cons.
          split; [exact Hc'|constructor].
    Qed.

    Lemma local_share : exists z, torch wt bt t = Ok z /\ tshape z = part_shape co S w cout b ys j s /\ share_by j i s z.
    Proof.
      destruct (HT _ _ _ _ _ _ _ _ local_arguments) as (z & E & Sz & Vz). exists z. split; [exact E|]. split; [exact Sz|].
      intros b' c' o Hq. apply may_marks with (conv_terms w' groups (subshape1 ci i cin) (subshape1 co j cout) t wt bt b' c' o).
      - unfold part_shape in Hq. apply valid_index_cons in Hq as [H1 Hq]. apply valid_index_cons in Hq as [H2 H3]. apply local_terms; auto.
      - apply Vz. now rewrite Sz.
    Qed.
  End Local.

  (** From the blocks of the output to the output. *)
  Lemma output_blocks (T : Z -> list Z -> tensor R) :
    (forall j s, 0 <= j < co -> valid_index S s -> tshape (T j s) = part_shape co S w cout b ys j s /\
      forall b' c' o, valid_index (part_shape co S w cout b ys j s) (b' :: c' :: o) ->
        may_evaluate M (flat_map (fun i => share j i s b' c' o) (zrange ci)) (tat (T j s) (b' :: c' :: o))) ->
    exists Y, conv_by M w groups cin cout X W bias b ys Y /\
      forall j s, 0 <= j < co -> valid_index S s -> teq (T j s) (block (balanced (tshape Y) (1 :: co :: S)) (0 :: j :: s) Y).
  Proof.
    intros HT. destruct l_facts as (F1 & F2 & F3 & F4 & F5 & F6 & F7 & F8). destruct l_seq as (_ & Hb & _ & Hys & Ly).
    destruct (k_pos _ _ _ _ _ _ _ _ _ _ _ _ _ _ HL) as (P1 & P2 & P3). pose proof HL as (_ & HSl & _ & _ & _ & _ & _ & _ & _ & _ & _ & HY).
    assert (Np : nonneg_shape (b :: cout :: ys)).
    { constructor; [lia|]. constructor; [lia|]. eapply Forall_impl; [|exact Hys]. cbn. lia. }
    assert (Pp : pos_shape (1 :: co :: S)) by (constructor; [lia|]; constructor; [lia|auto]).
    assert (Lp : length (b :: cout :: ys) = length (1 :: co :: S)) by (cbn [length]; unfold nk in *; congruence).
    assert (Sp : forall j s, 0 <= j < co -> valid_index S s ->
        part_shape co S w cout b ys j s = block_shape (balanced (b :: cout :: ys) (1 :: co :: S)) (0 :: j :: s)).
    { intros j s Hj Hs. rewrite <- EY0. exact (part_block_shape co S w groups cin cout b ys W X bias F3 Y0 xs EX Lxs EY0 HY P3 HSl j s Hj Hs). }
    destruct (assemble (balanced (b :: cout :: ys) (1 :: co :: S)) (fun idx => T (nth 1 idx 0) (skipn 2 idx))
      (fun g r => may_evaluate M (conv_terms w groups cin cout X W bias (nth 0 g 0) (nth 1 g 0) (skipn 2 g)) r)) as (Y & SY & BY & VY).
    { now apply balanced_ok. }
    { rewrite balanced_workers by auto. intros idx Hi.
      apply valid_index_cons_inv in Hi as (a & q & -> & Ha & Hi). assert (a = 0) by lia. subst a.
      apply valid_index_cons_inv in Hi as (j & s & -> & Hj & Hs). cbn [nth skipn]. destruct (HT j s Hj Hs) as [S1 V1].
      split; [rewrite S1; now apply Sp|]. intros p Hp. rewrite <- Sp in Hp by auto. pose proof Hp as Hp'. unfold part_shape in Hp'.
      apply valid_index_cons_inv in Hp' as (b' & q & -> & Hb' & Hp'). apply valid_index_cons_inv in Hp' as (c' & o & -> & Hc' & Ho).
      apply valid_index_length in Ho. rewrite vec_length in Ho.
      rewrite !bal_lo_cons by lia. rewrite start1_0 by lia. unfold vadd. cbn [map2 nth skipn]. rewrite Z.add_0_l. fold (vadd (block_lo (balanced ys S) s) o).
      eapply may_perm; [apply (shares j s b' c' o Hs Ho)|]. now apply V1. }
    rewrite balanced_workers in BY by auto. rewrite balanced_shape in SY, VY by auto. exists Y. split; [split; [exact SY|]|].
    - intros b' c' o Hq. rewrite SY in Hq. exact (VY _ Hq).
    - intros j s Hj Hs. rewrite SY. specialize (BY (0 :: j :: s)). cbn [nth skipn] in BY. apply BY.
      repeat (apply valid_index_cons; split; [lia|]). exact Hs.
  Qed.

  Section Combine.
    Variable red : Z -> list Z -> list R -> list Z -> R.
    Hypothesis HM : adds M red.
    Variables (dt dt' : Z -> Z) (rg rg' : Z -> bool) (local : Z -> tensor R -> result (tensor R)) (inp : Z -> tensor R).
    Hypothesis Hin : forall v, In v (p_ranks Px) -> nonneg_shape (tshape (inp v)) /\ tshape (inp v) <> [].
    Hypothesis Hother : others_pass Px Py Pw inp.
    Hypothesis Hlocal : forall j i s u v t, worker_at Pw (j :: i :: s) u -> worker_at Px (0 :: i :: s) v ->
      0 <= j < co -> 0 <= i < ci -> valid_index S s -> teq t (inp v) ->
      exists t', local u t = Ok t' /\ tshape t' = part_shape co S w cout b ys j s /\ share_by j i s t'.

    Lemma combine_by : exists Y, conv_by M w groups cin cout X W bias b ys Y /\
      conv_delivers Px Py Pw Y inp (work_forward_by red Px Pw (y_part Py co S) false false false dt dt' rg rg' local inp).
    Proof.
      pose proof (k_parts _ _ _ _ _ _ _ _ _ _ _ _ _ _ HL) as HP.
      pose proof (c_px _ _ _ _ _ _ HP) as H1. pose proof (c_py _ _ _ _ _ _ HP) as H2. pose proof (c_pw _ _ _ _ _ _ HP) as H3.
      destruct (k_pos _ _ _ _ _ _ _ _ _ _ _ _ _ _ HL) as (P1 & P2 & P3).
      destruct l_facts as (F1 & F2 & F3 & F4 & F5 & F6 & F7 & F8). destruct l_seq as (_ & Hb & _ & Hys & Ly).
      pose proof HL as (_ & HSl & _ & _ & _ & _ & _ & _ & _ & _ & _ & HY).
      set (shp := fun u => match index_in Pw u with Some (j :: i :: s) => part_shape co S w cout b ys j s | _ => [] end).
      set (G := fun u z => match index_in Pw u with Some (j :: i :: s) => share_by j i s z | _ => True end).
      assert (Eo : forall j i s u, worker_at Pw (j :: i :: s) u -> shp u = part_shape co S w cout b ys j s /\ forall z, G u z -> share_by j i s z).
      { intros j i s u Hu. unfold shp, G. apply index_in_spec in Hu; auto. now rewrite Hu. }
      assert (Eg : forall j i s u z, worker_at Pw (j :: i :: s) u -> share_by j i s z -> G u z).
      { intros j i s u z Hu. unfold G. apply index_in_spec in Hu; auto. now rewrite Hu. }
      destruct (work_sum_by M red HM Px Pw (y_part Py co S) false false false dt dt' rg rg' local inp shp G
                  (c_bc _ _ _ _ _ _ HP) (c_rd _ _ _ _ _ _ HP) (or_introl eq_refl)) as (A & B & C).
      - intros v Hv. destruct (in_dec Z.eq_dec v (p_ranks Px)) as [Hi|Hi]; [auto|]. apply Hother; auto. destruct Hv as [?|[?|?]]; auto. contradiction.
      - intros s u t Hp Ht. destruct (c_source _ _ _ _ _ _ HP s u Hp) as (j & i & s' & Hu & Hs & Hj & Hi & Hs').
        destruct (Hlocal j i s' u s t Hu Hs Hj Hi Hs' Ht) as (t' & E' & S' & V'). exists t'. split; [exact E'|].
        rewrite (proj1 (Eo _ _ _ _ Hu)). split; [exact S'|]. eapply Eg; eauto.
      - intros u Hu. destruct (worker_at_exists Pw u H3 Hu) as [idx Hi].
        destruct (pw_idx _ _ _ _ _ _ HP idx (proj1 Hi)) as (j & i & s & -> & Hj & Hi' & Hs). rewrite (proj1 (Eo _ _ _ _ Hi)).
        apply (part_nonneg co ci S w groups cin cout b ys W X bias F1 F3 Y0 xs EX Lxs EY0 HY P3 HSl j i s Hj Hs).
      - intros d u u' Hu Hu'. apply (c_destination _ _ _ _ _ _ HP) in Hu as (j & i & s & Hu & Hd), Hu' as (j' & i' & s' & Hu' & Hd').
        rewrite (proj1 (Eo _ _ _ _ Hu)), (proj1 (Eo _ _ _ _ Hu')). pose proof (worker_at_fun Py _ _ d H2 Hd Hd') as E. inversion E. reflexivity.
      - set (y := work_forward_by red Px Pw (y_part Py co S) false false false dt dt' rg rg' local inp) in *.
        assert (K : forall j s d, worker_at Py (0 :: j :: s) d -> 0 <= j < co -> valid_index S s ->
          exists t, y d = Ok t /\ tshape t = part_shape co S w cout b ys j s /\
          forall b' c' o, valid_index (part_shape co S w cout b ys j s) (b' :: c' :: o) ->
            may_evaluate M (flat_map (fun i => share j i s b' c' o) (zrange ci)) (tat t (b' :: c' :: o))).
        { intros j s d Hd Hj Hs. destruct (A d _ (worker_at_In _ _ _ Hd) (c_contributors _ _ _ _ _ _ HP j s d Hd)) as (t & z & E & T1 & T2).
          assert (Wk : forall i, 0 <= i < ci -> worker_at Pw (j :: i :: s) (wk Pw (j :: i :: s))).
          { intros i Hi. apply wk_worker; auto. now apply (pw_ok _ _ _ _ _ _ HP). }
          assert (In1 : forall i, 0 <= i < ci -> In (wk Pw (j :: i :: s)) (map (fun i => wk Pw (j :: i :: s)) (zrange ci))).
          { intros i Hi. apply in_map_iff. exists i. split; auto. now apply in_zrange. }
          exists t. split; [exact E|]. split.
          - destruct (T1 _ (In1 0 ltac:(lia))) as [-> _]. apply (Eo j 0 s). apply Wk. lia.
          - intros b' c' o Hq.
            apply (may_parts M (zrange ci) (fun i => share j i s b' c' o) (fun i => tat (z (wk Pw (j :: i :: s))) (b' :: c' :: o))).
            + intros i Hi. apply in_zrange in Hi. destruct (T1 _ (In1 i Hi)) as (_ & _ & Gd). apply (proj2 (Eo j i s _ (Wk i Hi))) in Gd. now apply Gd.
            + specialize (T2 (b' :: c' :: o)). unfold nums in T2. rewrite map_map in T2. exact T2. }
        assert (Wy : forall j s, 0 <= j < co -> valid_index S s -> worker_at Py (0 :: j :: s) (wk Py (0 :: j :: s))).
        { intros j s Hj Hs. apply wk_worker; auto. rewrite (c_sy _ _ _ _ _ _ HP). repeat (apply valid_index_cons; split; [lia|]). exact Hs. }
        destruct (output_blocks (fun j s => val (y (wk Py (0 :: j :: s))))) as (Y & HC & HB).
        { intros j s Hj Hs. destruct (K j s _ (Wy j s Hj Hs) Hj Hs) as (t & -> & T1 & T2). cbn [val]. auto. }
        exists Y. split; [exact HC|]. split; [|split].
        + intros idx d Hd. destruct (py_idx _ _ _ _ _ _ HP idx (proj1 Hd)) as (j & s & -> & Hj & Hs).
          destruct (K j s d Hd Hj Hs) as (t & E & _). exists t. split; [exact E|]. rewrite (c_sy _ _ _ _ _ _ HP).
          specialize (HB j s Hj Hs). replace (wk Py (0 :: j :: s)) with d in HB by (symmetry; now apply worker_wk). rewrite E in HB. exact HB.
        + exact B.
        + exact C.
    Qed.
  End Combine.
End Layer.
