(** The distributed linear layer: C32. *)

From Verif Require Import Prelude SpecIndex SpecLayout SpecPartition ModelSlicing ModelDecomposition ModelPartition ProofSlicing
  ProofDecomposition ProofPartition Ring Tensor ModelCollectives ProofCollectives PropCollectives Blocks ModelRepartition
  ProofRepartition ProofHaloMixin ModelLinear ProofWork.

(** A tensor of extents [lead ++ [n]] is cut along its last dimension only, into
    [P] balanced pieces. *)
Definition last_cut (lead : list Z) (n P : Z) : layout := map (fun m => [m]) lead ++ [balanced1 n P].
Definition piece (lead : list Z) (i : Z) : list Z := map (fun _ => 0) lead ++ [i].

(** The partitions the layer requires: 1 x P_fi, P_fo x P_fi and 1 x P_fo over a
    common root; identical partition objects have identical contents. *)
Definition linear_partitions (Px Py Pw : part) (fi fo : Z) (same_xw same_wy : bool) : Prop :=
  part_ok Px /\ part_ok Py /\ part_ok Pw /\ p_root Px = p_root Pw /\ p_root Pw = p_root Py /\
  p_shape Px = [1; fi] /\ p_shape Py = [1; fo] /\ p_shape Pw = [fo; fi] /\
  (same_xw = true -> Px = Pw) /\ (same_wy = true -> Pw = Py).

(** The sequential layer: Y = X W^T + b. *)
Definition is_linear {R : CRing} (lead : list Z) (n_in n_out : Z) (X W : tensor R) (b : option (tensor R)) (Y : tensor R) : Prop :=
  tshape X = lead ++ [n_in] /\ tshape W = [n_out; n_in] /\ tshape Y = lead ++ [n_out] /\
  nonneg_shape lead /\ 0 <= n_in /\ 0 <= n_out /\
  match b with Some b => tshape b = [n_out] | None => True end /\
  forall l o, valid_index lead l -> 0 <= o < n_out ->
    tat Y (l ++ [o]) =
    radd (sumf (zrange n_in) (fun f => rmul (tat X (l ++ [f])) (tat W [o; f])))
         (match b with Some b => tat b [o] | None => rzero end).

Definition C32_statement : Prop :=
  forall (R : CRing) (Px Py Pw : part) (fi fo : Z) (same_xw same_wy : bool) dt dt' rg rg'
    (lead : list Z) (n_in n_out : Z) (X W Y : tensor R) (b : option (tensor R)) (weight bias x : Z -> tensor R),
  linear_partitions Px Py Pw fi fo same_xw same_wy ->
  is_linear lead n_in n_out X W b Y ->
  (* the input, the weight and the bias are held in blocks *)
  (forall i v, worker_at Px [0; i] v -> teq (x v) (block (last_cut lead n_in fi) (piece lead i) X)) ->
  (forall idx v, worker_at Pw idx v -> teq (weight v) (block (balanced [n_out; n_in] [fo; fi]) idx W)) ->
  match b with
  | Some b => forall j v, worker_at Pw [j; 0] v -> teq (bias v) (block (balanced [n_out] [fo]) [j] b)
  | None => True
  end ->
  (* other workers pass any tensor with a dimension *)
  (forall v, In v (p_ranks Pw) \/ In v (p_ranks Py) -> ~ In v (p_ranks Px) -> nonneg_shape (tshape (x v)) /\ tshape (x v) <> []) ->
  let use_bias := match b with Some _ => true | None => false end in
  let y := linear_forward Px Py Pw use_bias same_xw same_wy dt dt' rg rg' weight bias x in
  (* the constructor makes weights of the block's shape *)
  (forall idx v, worker_at Pw idx v ->
     sublinear_shape Pw n_in n_out idx = block_shape (balanced [n_out; n_in] [fo; fi]) idx) /\
  (* the outputs are the blocks of the sequential output *)
  (forall j d, worker_at Py [0; j] d ->
     exists t, y d = Ok t /\ teq t (block (last_cut lead n_out fo) (piece lead j) Y)) /\
  (* everyone else gets an empty tensor or the input back *)
  (forall v, In v (p_ranks Px) \/ In v (p_ranks Pw) -> ~ In v (p_ranks Py) ->
     exists t n, y v = Ok t /\ tshape t = [n; 0] /\ 0 <= n) /\
  (forall v, ~ In v (p_ranks Px) -> ~ In v (p_ranks Pw) -> ~ In v (p_ranks Py) -> y v = Ok (x v)).

(** ** Cutting the last dimension *)

Lemma radd_0_r {R : CRing} (a : R) : radd a rzero = a.
Proof. rewrite (Radd_comm (rth R)). apply (Radd_0_l (rth R)). Qed.

Lemma NoDup_map_inj {A B} (f : A -> B) l : (forall a b, In a l -> In b l -> f a = f b -> a = b) -> NoDup l -> NoDup (map f l).
Proof.
  induction l as [|a l IH]; intros Hi Hn; [constructor|]. inversion Hn; subst. cbn [map]. constructor.
  - intros H. apply in_map_iff in H as (b & E & Hb). apply Hi in E; [|now right|now left]. congruence.
  - apply IH; auto. intros u v Hu Hv. apply Hi; now right.
Qed.

Lemma zero_add (l : list Z) : forall lead : list Z, length l = length lead -> vadd (map (fun _ => 0) lead) l = l.
Proof.
  induction l as [|a l IH]; intros [|m lead] E; try discriminate; [reflexivity|].
  unfold vadd in *. cbn [map map2]. rewrite IH; auto.
Qed.

Lemma map2_app {A B C} (f : A -> B -> C) a : forall b c d, length a = length b ->
  map2 f (a ++ c) (b ++ d) = map2 f a b ++ map2 f c d.
Proof.
  induction a as [|x a IH]; intros [|y b] c d E; try discriminate; [reflexivity|]. cbn [app map2]. rewrite IH; auto.
Qed.

Lemma last_cut_shape lead n P i : 0 <= i < P -> block_shape (last_cut lead n P) (piece lead i) = lead ++ [subshape1 P i n].
Proof.
  intros Hi. unfold block_shape, last_cut, piece. rewrite map2_app by now rewrite !map_length. f_equal.
  - induction lead as [|m lead IH]; [reflexivity|]. cbn [map map2]. now rewrite IH.
  - cbn [map2]. now rewrite balanced1_nth.
Qed.

Lemma last_cut_lo lead n P i : 0 < P -> 0 <= i < P ->
  block_lo (last_cut lead n P) (piece lead i) = map (fun _ => 0) lead ++ [start1 P i n].
Proof.
  intros HP Hi. unfold block_lo, last_cut, piece. rewrite map2_app by now rewrite !map_length. f_equal.
  - induction lead as [|m lead IH]; [reflexivity|]. cbn [map map2]. now rewrite IH.
  - cbn [map2]. now rewrite balanced1_prefix by lia.
Qed.

Lemma last_cut_at {R : CRing} lead n P i (X : tensor R) l f : 0 < P -> 0 <= i < P -> length l = length lead ->
  tat (block (last_cut lead n P) (piece lead i) X) (l ++ [f]) = tat X (l ++ [start1 P i n + f]).
Proof.
  intros HP Hi Hl. cbn [block tat]. rewrite last_cut_lo by auto. unfold vadd.
  rewrite map2_app by (rewrite map_length; auto). cbn [map2]. do 2 f_equal. now apply zero_add.
Qed.

Lemma valid_snoc lead n i : valid_index (lead ++ [n]) i <-> exists l f, i = l ++ [f] /\ valid_index lead l /\ 0 <= f < n.
Proof.
  split.
  - intros H. unfold valid_index in H. apply Forall2_app_inv_l in H as (l & r & H1 & H2 & ->).
    inversion H2 as [|? f ? ? Hf Hr]; subst. inversion Hr; subst. exists l, f. auto.
  - intros (l & f & -> & Hl & Hf). apply Forall2_app; [exact Hl|]. constructor; [auto|constructor].
Qed.

(** Summing over the pieces is summing over the whole. *)
Lemma balanced_sum {R : CRing} (P n : Z) (F : Z -> R) : 0 < P -> 0 <= n ->
  sumf (zrange P) (fun i => sumf (zrange (subshape1 P i n)) (fun f => F (start1 P i n + f))) = sumf (zrange n) F.
Proof.
  intros HP Hn.
  enough (E : forall m, 0 <= m -> m <= P ->
    sumf (zrange m) (fun i => sumf (zrange (subshape1 P i n)) (fun f => F (start1 P i n + f))) = sumf (zrange (start1 P m n)) F).
  { rewrite E by lia. now rewrite start1_P. }
  apply (natlike_ind (fun m => m <= P -> sumf (zrange m) (fun i => sumf (zrange (subshape1 P i n)) (fun f => F (start1 P i n + f)))
                                        = sumf (zrange (start1 P m n)) F)).
  - intros _. now rewrite start1_0.
  - intros m Hm IH Hle. unfold Z.succ. rewrite zrange_succ, sumf_app, IH by lia. rewrite start1_step by lia.
    rewrite zrange_app; [|rewrite <- (start1_0 P n HP); apply start1_mono; lia|now apply subshape1_nonneg].
    rewrite sumf_app, sumf_map, sumf_cons, sumf_nil. f_equal. apply radd_0_r.
Qed.

(** ** The workers that contribute to one block of the output *)

Lemma project2 (a j i j' : Z) : project [1; a] [i; j'] = [0; if a =? 1 then 0 else j'].
Proof. reflexivity. Qed.

Section Linear.
  Context {R : CRing}.
  Variables (Px Py Pw : part) (fi fo : Z) (same_xw same_wy : bool).
  Hypothesis HP : linear_partitions Px Py Pw fi fo same_xw same_wy.

  Lemma l_fi : 0 < fi.
  Proof. destruct HP as ((_ & _ & Hp & _) & _ & _ & _ & _ & E & _). rewrite E in Hp. now inversion Hp as [|? ? ? H']; inversion H'. Qed.
  Lemma l_fo : 0 < fo.
  Proof. destruct HP as (_ & (_ & _ & Hp & _) & _ & _ & _ & _ & E & _). rewrite E in Hp. now inversion Hp as [|? ? ? H']; inversion H'. Qed.

  Lemma l_bc : bc_accepted Px Pw false false same_xw.
  Proof.
    destruct HP as (H1 & H2 & H3 & R1 & R2 & E1 & E2 & E3 & S1 & S2).
    repeat (split; [assumption|]). split; [|exact S1]. cbn [flip]. rewrite E1, E3.
    split; [cbn; lia|]. unfold trailing. cbn. constructor; [now right|]. constructor; [now left|constructor].
  Qed.
  Lemma l_rd : rd_accepted Pw Py true false same_wy.
  Proof.
    destruct HP as (H1 & H2 & H3 & R1 & R2 & E1 & E2 & E3 & S1 & S2).
    repeat (split; [assumption|]). split; [|exact S2]. cbn [flip]. rewrite E2, E3.
    split; [cbn; lia|]. unfold trailing. cbn. constructor; [now right|]. constructor; [now left|constructor].
  Qed.
  Lemma l_flags : bc_flags Py true false.
  Proof.
    right. destruct HP as (_ & _ & _ & _ & _ & _ & -> & _). intros [|[|j1]] [|[|j2]]; cbn; try congruence; auto;
      try (destruct j1; cbn; congruence); try (destruct j2; cbn; congruence).
  Qed.

  Lemma pw_valid j i : valid_index (p_shape Pw) [j; i] <-> 0 <= j < fo /\ 0 <= i < fi.
  Proof.
    destruct HP as (_ & _ & _ & _ & _ & _ & _ & -> & _). rewrite !valid_index_cons, valid_index_nil. tauto.
  Qed.
  Lemma pw_index idx : valid_index (p_shape Pw) idx -> exists j i, idx = [j; i] /\ 0 <= j < fo /\ 0 <= i < fi.
  Proof.
    destruct HP as (_ & _ & _ & _ & _ & _ & _ & -> & _). intros H. apply valid_index_cons_inv in H as (j & t & -> & Hj & H).
    apply valid_index_cons_inv in H as (i & t' & -> & Hi & H). apply valid_index_nil in H. subst t'. eauto.
  Qed.
  Lemma px_index idx : valid_index (p_shape Px) idx -> exists i, idx = [0; i] /\ 0 <= i < fi.
  Proof.
    destruct HP as (_ & _ & _ & _ & _ & -> & _). intros H. apply valid_index_cons_inv in H as (j & t & -> & Hj & H).
    apply valid_index_cons_inv in H as (i & t' & -> & Hi & H). apply valid_index_nil in H. subst t'.
    exists i. split; auto. f_equal. lia.
  Qed.
  Lemma py_index idx : valid_index (p_shape Py) idx -> exists j, idx = [0; j] /\ 0 <= j < fo.
  Proof.
    destruct HP as (_ & _ & _ & _ & _ & _ & -> & _). intros H. apply valid_index_cons_inv in H as (j & t & -> & Hj & H).
    apply valid_index_cons_inv in H as (i & t' & -> & Hi & H). apply valid_index_nil in H. subst t'.
    exists i. split; auto. f_equal. lia.
  Qed.

  (** The source of worker (j, i) is (0, i), its destination (0, j). *)
  Lemma l_source s u : paired Px Pw false false s u ->
    exists j i, worker_at Pw [j; i] u /\ worker_at Px [0; i] s /\ 0 <= j < fo /\ 0 <= i < fi.
  Proof.
    intros (si & di & Hs & Hu & E). destruct (px_index si (proj1 Hs)) as (i & -> & Hi).
    destruct (pw_index di (proj1 Hu)) as (j & i' & -> & Hj & Hi'). cbn [flip] in E.
    assert (Ex : p_shape Px = [1; fi]) by apply HP. rewrite Ex in E. cbn in E. injection E as E'.
    exists j, i'. assert (i' = i) by (destruct (Z.eqb_spec fi 1); lia). subst i'. auto.
  Qed.
  Lemma l_destination d u : paired Py Pw false true d u <->
    exists j i, worker_at Pw [j; i] u /\ worker_at Py [0; j] d.
  Proof.
    assert (Ey : p_shape Py = [1; fo]) by apply HP. split.
    - intros (si & di & Hs & Hu & E). destruct (py_index si (proj1 Hs)) as (j & -> & Hj).
      destruct (pw_index di (proj1 Hu)) as (j' & i & -> & Hj' & Hi). cbn [flip rev app] in E. rewrite Ey in E. cbn in E.
      injection E as E'. exists j', i. assert (j' = j) by (destruct (Z.eqb_spec fo 1); lia). subst j'. split; assumption.
    - intros (j & i & Hu & Hd). exists [0; j], [j; i]. split; [auto|]. split; [auto|]. cbn [flip rev app]. rewrite Ey.
      cbn. destruct Hu as [Hu _]. apply pw_valid in Hu as [Hj Hi].
      destruct (Z.eqb_spec fo 1); auto. do 2 f_equal. lia.
  Qed.

  Lemma l_contributors j d : worker_at Py [0; j] d ->
    contributors Py Pw true d (map (fun i => wk Pw [j; i]) (zrange fi)).
  Proof.
    intros Hd. assert (HW : part_ok Pw) by apply HP.
    assert (Hj : 0 <= j < fo).
    { destruct (py_index _ (proj1 Hd)) as (j' & E & Hj). inversion E. auto. }
    split.
    - apply NoDup_map_inj; [|apply zrange_nodup]. intros i i' Hi Hi' E. apply in_zrange in Hi, Hi'.
      apply wk_inj in E; try (apply pw_valid); auto. congruence.
    - intros u. rewrite in_map_iff, l_destination. split.
      + intros (i & <- & Hi). apply in_zrange in Hi. exists j, i. split; auto. apply wk_worker; auto. now apply pw_valid.
      + intros (j' & i & Hu & Hd'). assert (Hv := proj1 Hu). apply pw_valid in Hv as [_ Hi].
        pose proof (worker_at_fun Py _ _ d (proj1 (proj2 HP)) Hd Hd') as E. inversion E; subst j'.
        exists i. split; [now apply worker_wk|now apply in_zrange].
  Qed.
End Linear.

Section Values.
  Context {R : CRing}.
  Add Ring R_ring : (rth R).
  Variables (Px Py Pw : part) (fi fo : Z) (same_xw same_wy : bool).
  Hypothesis HP : linear_partitions Px Py Pw fi fo same_xw same_wy.
  Variables (lead : list Z) (n_in n_out : Z) (X W Y : tensor R) (b : option (tensor R)) (weight bias x : Z -> tensor R).
  Hypothesis HY : is_linear lead n_in n_out X W b Y.
  Hypothesis Hx : forall i v, worker_at Px [0; i] v -> teq (x v) (block (last_cut lead n_in fi) (piece lead i) X).
  Hypothesis Hw : forall idx v, worker_at Pw idx v -> teq (weight v) (block (balanced [n_out; n_in] [fo; fi]) idx W).
  Hypothesis Hb : match b with
    | Some b => forall j v, worker_at Pw [j; 0] v -> teq (bias v) (block (balanced [n_out] [fo]) [j] b)
    | None => True
    end.

  (** What the layer of worker (j, i) must compute. *)
  Definition part_output (j i : Z) : tensor R :=
    mkt (lead ++ [subshape1 fo j n_out]) (fun p =>
      radd (sumf (zrange (subshape1 fi i n_in)) (fun f =>
              rmul (tat X (removelast p ++ [start1 fi i n_in + f]))
                   (tat W [start1 fo j n_out + last p 0; start1 fi i n_in + f])))
           (if i =? 0 then match b with Some b => tat b [start1 fo j n_out + last p 0] | None => rzero end else rzero)).

  Let Pi := l_fi Px Py Pw fi fo same_xw same_wy HP.
  Let Po := l_fo Px Py Pw fi fo same_xw same_wy HP.

  Lemma weight_shape j i : 0 <= j < fo -> 0 <= i < fi ->
    block_shape (balanced [n_out; n_in] [fo; fi]) [j; i] = [subshape1 fo j n_out; subshape1 fi i n_in].
  Proof. intros Hj Hi. unfold block_shape, balanced. cbn [map2]. now rewrite !balanced1_nth. Qed.

  Lemma weight_at j i o f : 0 <= j < fo -> 0 <= i < fi ->
    tat (block (balanced [n_out; n_in] [fo; fi]) [j; i] W) [o; f] = tat W [start1 fo j n_out + o; start1 fi i n_in + f].
  Proof.
    intros Hj Hi. cbn [block tat]. unfold block_lo, balanced, vadd. cbn [map2]. now rewrite !balanced1_prefix by lia.
  Qed.

  Lemma sub_ok s u t j i : worker_at Pw [j; i] u -> worker_at Px [0; i] s -> teq t (x s) ->
    exists t', sublinear Pw (match b with Some _ => true | None => false end) weight bias u t = Ok t' /\
               teq t' (part_output j i).
  Proof.
    intros Hu Hs Ht.
    assert (Hji : 0 <= j < fo /\ 0 <= i < fi) by (apply (pw_valid Px Py Pw fi fo same_xw same_wy HP), Hu).
    destruct Hji as [Hj Hi].
    destruct HY as (SX & SW & SY & NL & N1 & N2 & Sb & VY).
    pose proof (teq_trans _ _ _ Ht (Hx i s Hs)) as [St Vt].
    assert (St' : tshape t = lead ++ [subshape1 fi i n_in]) by (rewrite St; now apply last_cut_shape).
    destruct (Hw _ _ Hu) as [Sw Vw].
    assert (Sw' : tshape (weight u) = [subshape1 fo j n_out; subshape1 fi i n_in]) by (rewrite Sw; now apply weight_shape).
    unfold sublinear. assert (HW : part_ok Pw) by apply HP. apply (index_in_spec Pw u [j; i] HW) in Hu as Ei. rewrite Ei.
    unfold torch_linear. rewrite St', Sw'.
    destruct (lead ++ [subshape1 fi i n_in]) as [|m r] eqn:El; [destruct lead; discriminate|]. rewrite <- El.
    rewrite last_last, Z.eqb_refl, removelast_last. eexists. split; [reflexivity|]. split; [reflexivity|].
    cbn [tshape tat]. intros p Hp. apply valid_snoc in Hp as (l & o & -> & Hl & Ho).
    rewrite removelast_last, last_last. cbn [part_output tat]. rewrite removelast_last, last_last. f_equal.
    - apply sumf_ext. intros f Hf. apply in_zrange in Hf. f_equal.
      + rewrite Vt.
        * apply last_cut_at; auto. now apply valid_index_length in Hl.
        * rewrite St'. rewrite <- El. apply valid_snoc. exists l, f. auto.
      + rewrite Vw; [now apply weight_at|]. rewrite Sw'. repeat (apply valid_index_cons; split; auto). constructor.
    - unfold sublinear_bias. cbn [last]. destruct (Z.eqb_spec i 0) as [->|Ne]; [|reflexivity].
      destruct b as [b0|]; [|reflexivity]. destruct (Hb j u Hu) as [Eb Vb].
      assert (Eb' : tshape (bias u) = [subshape1 fo j n_out]).
      { rewrite Eb. cbn [block tshape]. unfold block_shape, balanced. cbn [map2]. now rewrite balanced1_nth. }
      rewrite Vb.
      + cbn [block tat]. unfold block_lo, balanced, vadd. cbn [map2]. now rewrite balanced1_prefix by lia.
      + rewrite Eb'. constructor; [auto|constructor].
  Qed.

  (** The parts add up to the block of the output. *)
  Lemma parts_sum j p : 0 <= j < fo -> valid_index (lead ++ [subshape1 fo j n_out]) p ->
    sumf (zrange fi) (fun i => tat (part_output j i) p) = tat (block (last_cut lead n_out fo) (piece lead j) Y) p.
  Proof.
    clear Hx Hw Hb. intros Hj Hp. apply valid_snoc in Hp as (l & o & -> & Hl & Ho).
    destruct HY as (SX & SW & SY & NL & N1 & N2 & Sb & VY).
    rewrite last_cut_at; auto; [|now apply valid_index_length in Hl].
    rewrite VY; auto.
    2:{ pose proof (start1_mono fo 0 j n_out Po N2 ltac:(lia)) as A. rewrite start1_0 in A by exact Po.
        pose proof (start1_mono fo (j + 1) fo n_out Po N2 ltac:(lia)) as B. rewrite start1_P, start1_step in B by (exact Po || lia). lia. }
    cbn [part_output tat]. rewrite removelast_last, last_last. rewrite sumf_add. f_equal.
    - apply (balanced_sum fi n_in (fun f => rmul (tat X (l ++ [f])) (tat W [start1 fo j n_out + o; f]))); auto.
    - rewrite (sumf_single (zrange fi) _ 0).
      + reflexivity.
      + apply zrange_nodup.
      + apply in_zrange. split; [lia|exact Pi].
      + intros i Hi Hne. destruct (Z.eqb_spec i 0); [congruence|reflexivity].
  Qed.
End Values.

Lemma C32_proof : C32_statement.
Proof.
  intros R Px Py Pw fi fo same_xw same_wy dt dt' rg rg' lead n_in n_out X W Y b weight bias x HP HY Hx Hw Hb Ho use_bias y.
  pose proof HY as (SX & SW & SY & NL & N1 & N2 & Sb & VY).
  assert (H1 : part_ok Px) by apply HP. assert (H2 : part_ok Py) by apply HP. assert (H3 : part_ok Pw) by apply HP.
  pose proof (l_fi _ _ _ _ _ _ _ HP) as Pi. pose proof (l_fo _ _ _ _ _ _ _ HP) as Po.
  set (out := fun u => match index_in Pw u with
                       | Some idx => part_output fi fo lead n_in n_out X W b (nth 0 idx 0) (nth 1 idx 0)
                       | None => x u end).
  assert (Eout : forall j i u, worker_at Pw [j; i] u -> out u = part_output fi fo lead n_in n_out X W b j i).
  { intros j i u Hu. unfold out. apply index_in_spec in Hu; auto. now rewrite Hu. }
  assert (Iw : forall u, In u (p_ranks Pw) -> exists j i, worker_at Pw [j; i] u /\ 0 <= j < fo /\ 0 <= i < fi).
  { intros u Hu. destruct (worker_at_exists Pw u H3 Hu) as [idx Hi].
    destruct (pw_index _ _ _ _ _ _ _ HP idx (proj1 Hi)) as (j & i & -> & Hj & Hi'). eauto. }
  assert (NS : forall n P k, 0 < P -> 0 <= n -> nonneg_shape (lead ++ [subshape1 P k n])).
  { intros n P k HPp Hn. apply Forall_app. split; [auto|]. constructor; [now apply subshape1_nonneg|constructor]. }
  assert (NE : forall (z : Z), lead ++ [z] <> []) by (intros z E; destruct lead; discriminate).
  destruct (work_sum Px Pw Py same_xw same_wy true dt dt' rg rg' (sublinear Pw use_bias weight bias) x out
              (l_bc _ _ _ _ _ _ _ HP) (l_rd _ _ _ _ _ _ _ HP) (l_flags _ _ _ _ _ _ _ HP)) as (A & B & C & D).
  - intros v Hv. destruct (in_dec Z.eq_dec v (p_ranks Px)) as [Hin|Hin]; [|apply Ho; tauto].
    destruct (worker_at_exists Px v H1 Hin) as [idx Hi]. destruct (px_index _ _ _ _ _ _ _ HP idx (proj1 Hi)) as (i & -> & Hi').
    destruct (Hx i v Hi) as [E _]. rewrite E. cbn [block tshape]. rewrite last_cut_shape by auto. auto.
  - intros s u t Hp _ Ht. destruct (l_source _ _ _ _ _ _ _ HP s u Hp) as (j & i & Hu & Hs & Hj & Hi).
    rewrite (Eout j i u Hu).
    exact (sub_ok Px Py Pw fi fo same_xw same_wy HP lead n_in n_out X W Y b weight bias x HY Hx Hw Hb s u t j i Hu Hs Ht).
  - intros u Hu. destruct (Iw u Hu) as (j & i & Hu' & Hj & Hi). rewrite (Eout j i u Hu'). cbn [part_output tshape]. auto.
  - intros d u u' Hu Hu'. apply (l_destination _ _ _ _ _ _ _ HP) in Hu as (j & i & Hu & Hd), Hu' as (j' & i' & Hu' & Hd').
    rewrite (Eout _ _ _ Hu), (Eout _ _ _ Hu'). pose proof (worker_at_fun Py _ _ d H2 Hd Hd') as E. inversion E. reflexivity.
  - split; [|split; [|split]].
    + intros idx v Hv. destruct (pw_index _ _ _ _ _ _ _ HP idx (proj1 Hv)) as (j & i & -> & Hj & Hi).
      rewrite weight_shape by auto. unfold sublinear_shape. assert (Ep : p_shape Pw = [fo; fi]) by apply HP. rewrite Ep. reflexivity.
    + intros j d Hd. destruct (A d _ (worker_at_In _ _ _ Hd) (l_contributors _ _ _ _ _ _ _ HP j d Hd)) as (t & E & T1 & T2).
      assert (Hj : 0 <= j < fo).
      { destruct (py_index _ _ _ _ _ _ _ HP _ (proj1 Hd)) as (j' & Ej & Hj). inversion Ej. auto. }
      assert (Wk : forall i, 0 <= i < fi -> worker_at Pw [j; i] (wk Pw [j; i])).
      { intros i Hi. apply wk_worker; auto. now apply (pw_valid _ _ _ _ _ _ _ HP). }
      assert (Et : tshape t = lead ++ [subshape1 fo j n_out]).
      { rewrite (T1 (wk Pw [j; 0])).
        - rewrite (Eout j 0); [reflexivity|]. apply Wk. lia.
        - apply in_map_iff. exists 0. split; auto. apply in_zrange. lia. }
      exists t. split; [exact E|]. split; [rewrite Et; symmetry; now apply last_cut_shape|].
      intros p Hp. rewrite T2 by auto. rewrite sumf_map. rewrite Et in Hp.
      rewrite <- (parts_sum Px Py Pw fi fo same_xw same_wy HP lead n_in n_out X W Y b weight bias x HY j p Hj Hp).
      apply sumf_ext. intros i Hi. apply in_zrange in Hi. now rewrite (Eout j i) by auto.
    + intros v Hv Hn. destruct (in_dec Z.eq_dec v (p_ranks Pw)) as [Hin|Hin].
      * exact (B v Hin Hn).
      * destruct Hv as [Hv|Hv]; [|contradiction]. exact (C v Hv Hin Hn).
    + exact D.
Qed.

Theorem C32_linear : C32_statement.
Proof. exact C32_proof. Qed.

(** A 2 x 5 input on two workers, a 4 x 5 weight on a 3 x 2 grid, the output on
    three workers: worker 1 has input and weight, worker 7 only output. *)
Definition ex32_x : part := mkpart 0 [0; 1] [1; 2].
Definition ex32_y : part := mkpart 0 [2; 7; 1] [1; 3].
Definition ex32_w : part := mkpart 0 [1; 2; 3; 4; 5; 6] [3; 2].
Definition ex32_X : tensor Zring := @mkt Zring [2; 5] (fun i => row_major [2; 5] i).
Definition ex32_W : tensor Zring := @mkt Zring [4; 5] (fun i => 1 + row_major [4; 5] i * row_major [4; 5] i).
Definition ex32_b : tensor Zring := @mkt Zring [4] (fun i => 100000 * (1 + nth 0 i 0)).
Definition ex32_Y : tensor Zring := @mkt Zring [2; 4] (fun i =>
  radd (sumf (zrange 5) (fun f => rmul (tat ex32_X [nth 0 i 0; f]) (tat ex32_W [nth 1 i 0; f]))) (tat ex32_b [nth 1 i 0])).
Definition ex32_in (v : Z) : tensor Zring :=
  match index_in ex32_x v with Some idx => block (last_cut [2] 5 2) (piece [2] (nth 1 idx 0)) ex32_X | None => @mkt Zring [0] (fun _ => 0) end.
Definition ex32_weight (v : Z) : tensor Zring :=
  match index_in ex32_w v with Some idx => block (balanced [4; 5] [3; 2]) idx ex32_W | None => @mkt Zring [0] (fun _ => 0) end.
Definition ex32_bias (v : Z) : tensor Zring :=
  match index_in ex32_w v with Some idx => block (balanced [4] [3]) [nth 0 idx 0] ex32_b | None => @mkt Zring [0] (fun _ => 0) end.

Example C32_example :
  linear_partitions ex32_x ex32_y ex32_w 2 3 false false /\
  is_linear [2] 5 4 ex32_X ex32_W (Some ex32_b) ex32_Y /\
  (forall i v, worker_at ex32_x [0; i] v -> teq (ex32_in v) (block (last_cut [2] 5 2) (piece [2] i) ex32_X)) /\
  (forall idx v, worker_at ex32_w idx v -> teq (ex32_weight v) (block (balanced [4; 5] [3; 2]) idx ex32_W)) /\
  (forall j v, worker_at ex32_w [j; 0] v -> teq (ex32_bias v) (block (balanced [4] [3]) [j] ex32_b)) /\
  (forall v, In v (p_ranks ex32_w) \/ In v (p_ranks ex32_y) -> ~ In v (p_ranks ex32_x) ->
     nonneg_shape (tshape (ex32_in v)) /\ tshape (ex32_in v) <> []) /\
  let y := linear_forward ex32_x ex32_y ex32_w true false false (fun _ => 0) (fun _ => 0) (fun _ => true) (fun _ => true)
             ex32_weight ex32_bias ex32_in in
  tshape (val (y 7)) = [2; 1] /\ tat (val (y 7)) [1; 0] = tat ex32_Y [1; 2] /\ tat ex32_Y [1; 2] = 305385 /\
  tshape (val (y 2)) = [2; 2] /\ tat (val (y 2)) [1; 1] = tat ex32_Y [1; 1] /\ y 8 = Ok (ex32_in 8).
Proof.
  assert (K : part_ok ex32_x /\ part_ok ex32_y /\ part_ok ex32_w).
  { split; [|split]; (split; [repeat (constructor; [simpl; lia|]); constructor|]); (split; [discriminate|]);
      (split; [repeat constructor|reflexivity]). }
  destruct K as (K1 & K2 & K3). split; [|split; [|split; [|split; [|split; [|split]]]]].
  - repeat (split; [auto; fail|]). split; discriminate.
  - repeat (split; [auto; fail|]). split; [repeat constructor; lia|]. split; [lia|]. split; [lia|]. split; [reflexivity|].
    intros l o Hl Ho. apply valid_index_cons_inv in Hl as (i & t & -> & Hi & Ht). apply valid_index_nil in Ht. subst t. reflexivity.
  - intros i v Hv. unfold ex32_in. apply index_in_spec in Hv; auto. rewrite Hv. apply teq_refl.
  - intros i v Hv. unfold ex32_weight. apply index_in_spec in Hv; auto. rewrite Hv. apply teq_refl.
  - intros i v Hv. unfold ex32_bias. apply index_in_spec in Hv; auto. rewrite Hv. apply teq_refl.
  - intros v _ Hn. unfold ex32_in. apply index_in_none in Hn. rewrite Hn. split; [repeat constructor; lia|discriminate].
  - vm_compute. repeat split; reflexivity.
Qed.

Print Assumptions C32_linear.
