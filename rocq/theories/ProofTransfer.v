(** Proofs about one exchange of blocks between two partitions, as done by the
    forward and backward functions of Repartition. *)

From Coq Require Import RelationClasses.
From Verif Require Import Prelude ModelSlicing ModelDecomposition ModelPartition
  SpecIndex SpecLayout SpecPartition ProofSlicing ProofDecomposition ProofPartition
  Ring Tensor ModelCollectives ModelBuffer P2P Rounds ModelRepartition ProofRepartition.

(** * List lemmas *)

Lemma count_map_unique {A B} (p : B -> bool) (f : A -> B) l x0 : NoDup l -> In x0 l ->
  (forall x, In x l -> p (f x) = true -> x = x0) ->
  length (filter p (map f l)) = if p (f x0) then 1%nat else 0%nat.
Proof.
  intros HN. induction HN as [|x l Hx HN IH]; intros Hin HU; [easy|]. simpl.
  destruct Hin as [->|Hin].
  - assert (length (filter p (map f l)) = 0%nat) as E.
    { apply length_zero_iff_nil. destruct (filter p (map f l)) as [|b r] eqn:E; auto. exfalso.
      assert (Hb : In b (b :: r)) by now left. rewrite <- E in Hb. apply filter_In in Hb as [Hb Hp].
      apply in_map_iff in Hb as (y & <- & Hy). assert (y = x0) by (apply HU; auto; now right).
      subst. contradiction. }
    destruct (p (f x0)); simpl; auto.
  - destruct (p (f x)) eqn:E.
    + assert (x = x0) by (apply HU; auto; now left). subst. contradiction.
    + apply IH; auto. intros y Hy. apply HU. now right.
Qed.

Lemma count_map_none {A B} (p : B -> bool) (f : A -> B) l :
  (forall x, In x l -> p (f x) = false) -> length (filter p (map f l)) = 0%nat.
Proof.
  induction l as [|x l IH]; intros H; auto. simpl. rewrite H by now left. apply IH.
  intros y Hy. apply H. now right.
Qed.

Lemma find_map_unique {A B} (p : B -> bool) (f : A -> B) l x0 : In x0 l ->
  (forall x, In x l -> p (f x) = true -> x = x0) ->
  find p (map f l) = if p (f x0) then Some (f x0) else None.
Proof.
  intros Hin HU. destruct (find p (map f l)) as [b|] eqn:E.
  - apply find_some in E as [Hb Hp]. apply in_map_iff in Hb as (x & <- & Hx).
    assert (x = x0) by auto. subst. now rewrite Hp.
  - pose proof (find_none _ _ E (f x0) (in_map f l x0 Hin)) as ->. auto.
Qed.

Lemma find_map_none {A B} (p : B -> bool) (f : A -> B) l :
  (forall x, In x l -> p (f x) = false) -> find p (map f l) = None.
Proof.
  induction l as [|x l IH]; intros H; auto. simpl. rewrite H by now left. apply IH.
  intros y Hy. apply H. now right.
Qed.

Lemma FOP_app {A} (P : A -> A -> Prop) l1 l2 : ForallOrdPairs P l1 -> ForallOrdPairs P l2 ->
  (forall a b, In a l1 -> In b l2 -> P a b) -> ForallOrdPairs P (l1 ++ l2).
Proof.
  intros H1 H2 H. induction H1 as [|a l Ha Hl IH]; simpl; auto. constructor.
  - apply Forall_app. split; auto. apply Forall_forall. intros b Hb. apply H; auto. now left.
  - apply IH. intros; apply H; auto. now right.
Qed.

Lemma FOP_map_nodup {A B} (P : B -> B -> Prop) (f : A -> B) l : NoDup l ->
  (forall x y, In x l -> In y l -> x <> y -> P (f x) (f y)) -> ForallOrdPairs P (map f l).
Proof.
  intros HN. induction HN as [|x l Hx HN IH]; intros H; simpl; constructor.
  - apply Forall_forall. intros b Hb. apply in_map_iff in Hb as (y & <- & Hy).
    apply H; [now left|now right|]. intros ->. contradiction.
  - apply IH. intros a b Ha Hb. apply H; now right.
Qed.

Lemma in_split_nodup {A} (x : A) l : NoDup l -> In x l ->
  exists l1 l2, l = l1 ++ x :: l2 /\ ~ In x l1 /\ ~ In x l2.
Proof.
  intros HN Hin. apply in_split in Hin as (l1 & l2 & ->). exists l1, l2. split; auto.
  apply NoDup_remove_2 in HN. rewrite in_app_iff in HN. tauto.
Qed.

(** * Slices of boxes *)

Lemma in_slice_points base sl i : length base = length i -> length sl = length i ->
  (in_slice sl i = true <-> slice_points base sl (vadd base i)).
Proof.
  unfold in_slice, slice_points. revert sl i. induction base as [|b base IH]; intros [|s sl] [|x i] H1 H2;
    try discriminate.
  - simpl. split; auto. intros _. now apply in_box_nil.
  - unfold vadd in *. cbn [map map2 length combine forallb fst snd].
    rewrite in_box_cons. cbn [Nat.eqb]. rewrite andb_true_iff, andb_true_iff, andb_true_iff.
    rewrite <- (IH sl i) by (simpl in *; lia). rewrite andb_true_iff, Z.leb_le, Z.ltb_lt. intuition lia.
Qed.

Lemma in_slice_length sl i : in_slice sl i = true -> length sl = length i.
Proof. unfold in_slice. intros H. breflect. now apply Nat.eqb_eq. Qed.

Lemma overlap_start a_lo a_hi b_lo b_hi sl :
  length a_hi = length a_lo -> length b_lo = length a_lo -> length b_hi = length a_lo ->
  compute_subtensor_intersection_slice a_lo a_hi b_lo b_hi = Some sl ->
  map fst sl = vsub (map2 Z.max a_lo b_lo) a_lo.
Proof.
  intros H1 H2 H3. unfold compute_subtensor_intersection_slice, compute_intersection.
  destruct (_ =? 0); [discriminate|]. intros E. inv E. unfold assemble_slices, vsub.
  revert a_hi b_lo b_hi H1 H2 H3. induction a_lo as [|a a_lo IH]; intros [|a' a_hi] [|b b_lo] [|b' b_hi] H1 H2 H3;
    try discriminate; auto. simpl. f_equal. apply IH; simpl in *; lia.
Qed.

Lemma shift_eq a_lo b_lo (sa sb : list slice) l :
  length b_lo = length a_lo -> length l = length a_lo ->
  map fst sa = vsub (map2 Z.max a_lo b_lo) a_lo -> map fst sb = vsub (map2 Z.max b_lo a_lo) b_lo ->
  map2 (fun s k => fst s + k) sa (map2 (fun s k => k - fst s) sb l) = vsub (vadd b_lo l) a_lo.
Proof.
  unfold vsub, vadd. revert b_lo sa sb l.
  induction a_lo as [|a a_lo IH]; intros [|b b_lo] [|s sa] [|s' sb] [|x l] H1 H2 H3 H4;
    try discriminate; auto. simpl in *. inversion H3. inversion H4. f_equal; [lia|]. apply IH; auto; lia.
Qed.

(** * Equality of tensors and states *)

Section Transfer.
  Context {R : CRing}.
  Notation tensor := (tensor R).
  Notation action := (@action (@rst R) (@rmsg R)).

  Definition steq (a b : tensor) : Prop := tshape a = tshape b /\ forall i, tat a i = tat b i.

  Global Instance steq_equiv : Equivalence steq.
  Proof.
    split.
    - intros a. now split.
    - intros a b [H1 H2]. split; auto.
    - intros a b c [H1 H2] [H3 H4]. split; [congruence|]. intros i. now rewrite H2.
  Qed.

  Lemma steq_teq a b : steq a b -> teq a b.
  Proof. intros [H1 H2]. split; auto. Qed.

  Record eqS (a b : @rst R) : Prop := {
    es_in : steq (r_in a) (r_in b);
    es_rg : r_rg a = r_rg b;
    es_flag : r_flag a = r_flag b;
    es_out : steq (r_out a) (r_out b);
    es_outrg : r_outrg a = r_outrg b;
    es_hist : Forall2 (fun p q => steq (fst p) (fst q) /\ snd p = snd q) (r_hist a) (r_hist b)
  }.

  Lemma hist_refl (l : list (tensor * bool)) :
    Forall2 (fun p q => steq (fst p) (fst q) /\ snd p = snd q) l l.
  Proof. induction l; constructor; auto. split; reflexivity. Qed.

  Global Instance eqS_equiv : Equivalence eqS.
  Proof.
    split.
    - intros a. constructor; try reflexivity. apply hist_refl.
    - intros a b []. constructor; try (symmetry; assumption); auto.
      clear - es_hist0. induction es_hist0 as [|? ? ? ? [? ?]]; constructor; auto.
      split; symmetry; auto.
    - intros a b c [] []. constructor; try congruence; try (etransitivity; eassumption).
      clear - es_hist0 es_hist1. revert es_hist1. generalize (r_hist c) as l3.
      induction es_hist0 as [|? ? ? ? [? ?]]; intros l3 H3; inv H3; constructor; auto.
      match goal with H : steq (fst ?y) _ /\ snd ?y = _ |- _ => destruct H end.
      split; [etransitivity; eassumption|congruence].
  Qed.

  Definition eqM (a b : @rmsg R) : Prop :=
    match a, b with
    | inl x, inl y => x = y
    | inr x, inr y => steq x y
    | _, _ => False
    end.

  Global Instance eqM_equiv : Equivalence eqM.
  Proof.
    split.
    - intros []; simpl; reflexivity.
    - intros [] []; simpl; auto; intros; symmetry; auto.
    - intros [] [] []; simpl; intros; try tauto; try congruence; etransitivity; eassumption.
  Qed.

  Lemma read_proper (t t' : tensor) sl : steq t t' -> steq (read_slice t sl) (read_slice t' sl).
  Proof. intros [H1 H2]. split; simpl; auto. Qed.

  Lemma write_proper (t t' : tensor) sl m m' : steq t t' -> steq m m' ->
    steq (write_slice t sl m) (write_slice t' sl m').
  Proof.
    intros [H1 H2] [H3 H4]. unfold write_slice. rewrite H3. destruct (zlist_eqb _ _); [|now split].
    split; simpl; auto. intros i. destruct (in_slice sl i); auto.
  Qed.

  Lemma set_out_proper t t' b b' s s' : steq t t' -> b = b' -> eqS s s' ->
    eqS (set_out t b s) (set_out t' b' s').
  Proof. intros Ht -> []. constructor; simpl; auto. Qed.

  Lemma set_flag_proper b s s' : eqS s s' -> eqS (set_flag b s) (set_flag b s').
  Proof. intros []. constructor; simpl; auto. Qed.

  Lemma default_out_proper pb s s' : eqS s s' -> steq (default_out pb s) (default_out pb s').
  Proof. intros []. unfold default_out. destruct es_in0 as [-> _]. reflexivity. Qed.

  (** * The round *)

  Variables Px Py : part.
  Let U := union Px Py.
  Variable preserve_batch : bool.
  Variables A B : part.
  Variables LA LB : layout.
  Variable tag : Z.
  Variable outshape : Z -> list Z.

  Hypothesis HPx : part_ok Px.
  Hypothesis HPy : part_ok Py.
  Hypothesis HA : part_ok A.
  Hypothesis HB : part_ok B.
  Hypothesis HAU : forall v, In v (p_ranks A) -> In v U.
  Hypothesis HBU : forall v, In v (p_ranks B) -> In v U.
  Hypothesis HLA : layout_ok LA.
  Hypothesis HLB : layout_ok LB.
  Hypothesis HWA : layout_workers LA = p_shape A.
  Hypothesis HWB : layout_workers LB = p_shape B.
  Hypothesis HS : layout_shape LA = layout_shape LB.
  Hypothesis Hout : forall v j, index_in B v = Some j -> outshape v = block_shape LB j.

  Definition xfer_round (v : Z) : list action :=
    if is_active U v then
      [ALocal (fun s => set_out (default_out preserve_batch s) false s)] ++
      (if is_active (p_ranks B) v then map (recv_action Px Py tag) (ents U LB B LA A v) else []) ++
      (if is_active (p_ranks A) v then map (send_action Px Py tag) (ents U LA A LB B v) else []) ++
      (if is_active (p_ranks B) v
       then [ALocal (fun s => set_out (mkt (outshape v) (fun _ => rzero)) (r_flag s) s)] else []) ++
      (if is_active (p_ranks A) v && is_active (p_ranks B) v
       then [ALocal (self_copy (ents U LA A LB B v) (ents U LB B LA A v))] else [])
    else [ALocal (fun s => set_out (r_in s) (r_rg s) s)].

  Lemma U_nodup' : NoDup U.
  Proof. unfold U. destruct HPx as (? & _), HPy as (? & _). now apply group_union_nodup. Qed.

  Lemma nth_urank w : In w U -> nth (Z.to_nat (urank U w)) U 0 = w.
  Proof.
    intros Hw. unfold urank. destruct (rank_in_In U w Hw) as [r Hr]. rewrite Hr.
    apply rank_in_some in Hr as [_ Hr]. now apply nth_error_nth.
  Qed.

  Lemma send_ent o w v : In w U ->
    send_action Px Py tag (ent U o w v) =
    match o with
    | Some sl => if w =? v then ANull else ASend w tag (fun s => inr (read_slice (r_in s) sl))
    | None => ANull
    end :> action.
  Proof.
    intros Hw. destruct o as [sl|]; auto. unfold ent, send_action, ov_overlap.
    destruct (w =? v); auto. cbn [needs_buffer]. change (union Px Py) with U. now rewrite nth_urank.
  Qed.

  Definition unpack (sl : list slice) (m : @rmsg R) (s : @rst R) : @rst R :=
    match m with
    | inr t => set_out (write_slice (r_out s) sl t) (r_outrg s) s
    | inl _ => s
    end.

  Lemma recv_ent o w v : In w U ->
    recv_action Px Py tag (ent U o w v) =
    match o with
    | Some sl => if w =? v then ANull else ARecv w tag (unpack sl)
    | None => ANull
    end :> action.
  Proof.
    intros Hw. destruct o as [sl|]; auto. unfold ent, recv_action, ov_overlap.
    destruct (w =? v); auto. cbn [needs_buffer]. change (union Px Py) with U. now rewrite nth_urank.
  Qed.

  (** The sends and receives of a worker, by index of the partner. *)
  Definition sends (v : Z) : list action :=
    match index_in A v with
    | Some i => map (fun j => match osl LA i LB j with
                              | Some sl => if wk B j =? v then ANull
                                           else ASend (wk B j) tag (fun s => inr (read_slice (r_in s) sl))
                              | None => ANull end) (range_index (p_shape B))
    | None => []
    end.
  Definition recvs (v : Z) : list action :=
    match index_in B v with
    | Some j => map (fun i => match osl LB j LA i with
                              | Some sl => if wk A i =? v then ANull else ARecv (wk A i) tag (unpack sl)
                              | None => ANull end) (range_index (p_shape A))
    | None => []
    end.

  Lemma index_active P v : index_in P v = None -> is_active (p_ranks P) v = false.
  Proof. intros H. apply is_active_false. now apply index_in_none. Qed.
  Lemma index_active_some P v i : index_in P v = Some i -> is_active (p_ranks P) v = true.
  Proof.
    intros H. unfold index_in in H. unfold is_active. destruct (rank_in (p_ranks P) v); auto. discriminate.
  Qed.

  Lemma round_eq v : In v U -> xfer_round v =
    [ALocal (fun s => set_out (default_out preserve_batch s) false s)] ++
    recvs v ++ sends v ++
    (if is_active (p_ranks B) v
     then [ALocal (fun s => set_out (mkt (outshape v) (fun _ => rzero)) (r_flag s) s)] else []) ++
    (if is_active (p_ranks A) v && is_active (p_ranks B) v
     then [ALocal (self_copy (ents U LA A LB B v) (ents U LB B LA A v))] else []).
  Proof.
    intros Hv. unfold xfer_round. apply is_active_spec in Hv. rewrite Hv. f_equal. f_equal.
    - unfold recvs, ents. destruct (index_in B v) as [j|] eqn:E.
      + rewrite (index_active_some _ _ _ E), map_map. apply map_ext_in. intros i Hi.
        apply in_range_index in Hi. rewrite recv_ent; auto. apply HAU. now apply wk_In.
      + now rewrite (index_active _ _ E).
    - f_equal. unfold sends, ents. destruct (index_in A v) as [i|] eqn:E.
      + rewrite (index_active_some _ _ _ E), map_map. apply map_ext_in. intros j Hj.
        apply in_range_index in Hj. rewrite send_ent; auto. apply HBU. now apply wk_In.
      + now rewrite (index_active _ _ E).
  Qed.

  (** ** Overlaps *)

  Lemma lengths i j : valid_index (p_shape A) i -> valid_index (p_shape B) j ->
    length i = length LA /\ length j = length LB /\ length LA = length LB.
  Proof.
    intros Hi Hj. apply valid_index_length in Hi, Hj.
    assert (length LA = length LB) by (rewrite <- (layout_shape_length LA), HS; apply layout_shape_length).
    rewrite <- HWA, layout_workers_length in Hi. rewrite <- HWB, layout_workers_length in Hj. auto.
  Qed.

  Lemma osl_sym i j : valid_index (p_shape A) i -> valid_index (p_shape B) j ->
    (osl LA i LB j = None <-> osl LB j LA i = None).
  Proof.
    intros Hi Hj. destruct (lengths i j Hi Hj) as (E1 & E2 & E3). unfold osl.
    pose proof (block_lo_length LA i E1). pose proof (block_hi_length LA i E1).
    pose proof (block_lo_length LB j E2). pose proof (block_hi_length LB j E2).
    change compute_subtensor_intersection_slice with overlap_core.
    rewrite !overlap_core_none by congruence. split; intros G (g & Ga & Gb); apply G; eauto.
  Qed.

  Lemma osl_points i j sl l : valid_index (p_shape A) i -> valid_index (p_shape B) j ->
    osl LB j LA i = Some sl -> length l = length LB ->
    (in_slice sl l = true <->
     in_box (block_lo LB j) (block_hi LB j) (vadd (block_lo LB j) l) /\
     in_box (block_lo LA i) (block_hi LA i) (vadd (block_lo LB j) l)).
  Proof.
    intros Hi Hj Ho Hl. destruct (lengths i j Hi Hj) as (E1 & E2 & E3). unfold osl in Ho.
    pose proof (block_lo_length LA i E1). pose proof (block_hi_length LA i E1).
    pose proof (block_lo_length LB j E2). pose proof (block_hi_length LB j E2).
    change compute_subtensor_intersection_slice with overlap_core in Ho.
    apply overlap_core_points in Ho as (HL & HP & _); try congruence.
    rewrite (in_slice_points (block_lo LB j)) by congruence. apply HP.
  Qed.

  Lemma osl_len i j sl : valid_index (p_shape A) i -> valid_index (p_shape B) j ->
    osl LB j LA i = Some sl -> length sl = length LB.
  Proof.
    intros Hi Hj Ho. destruct (lengths i j Hi Hj) as (E1 & E2 & E3). unfold osl in Ho.
    pose proof (block_lo_length LA i E1). pose proof (block_hi_length LA i E1).
    pose proof (block_lo_length LB j E2). pose proof (block_hi_length LB j E2).
    change compute_subtensor_intersection_slice with overlap_core in Ho.
    apply overlap_core_points in Ho as (HL & HP & _); congruence.
  Qed.

  Lemma osl_shapes i j sa sb : valid_index (p_shape A) i -> valid_index (p_shape B) j ->
    osl LA i LB j = Some sa -> osl LB j LA i = Some sb ->
    compute_nd_slice_shape sa = compute_nd_slice_shape sb.
  Proof.
    intros Hi Hj Ha Hb. destruct (lengths i j Hi Hj) as (E1 & E2 & E3). unfold osl in Ha, Hb.
    pose proof (block_lo_length LA i E1). pose proof (block_hi_length LA i E1).
    pose proof (block_lo_length LB j E2). pose proof (block_hi_length LB j E2).
    change compute_subtensor_intersection_slice with overlap_core in Ha, Hb.
    apply overlap_core_points in Ha as (_ & _ & Ea & _); try congruence.
    apply overlap_core_points in Hb as (_ & _ & Eb & _); try congruence.
    rewrite Ea, Eb. apply isub_sym.
  Qed.

  Lemma osl_shift i j sa sb l : valid_index (p_shape A) i -> valid_index (p_shape B) j ->
    osl LA i LB j = Some sa -> osl LB j LA i = Some sb -> length l = length LB ->
    map2 (fun s k => fst s + k) sa (map2 (fun s k => k - fst s) sb l) =
    vsub (vadd (block_lo LB j) l) (block_lo LA i).
  Proof.
    intros Hi Hj Ha Hb Hl. destruct (lengths i j Hi Hj) as (E1 & E2 & E3). unfold osl in Ha, Hb.
    pose proof (block_lo_length LA i E1). pose proof (block_hi_length LA i E1).
    pose proof (block_lo_length LB j E2). pose proof (block_hi_length LB j E2).
    apply overlap_start in Ha, Hb; try congruence. apply shift_eq; auto; congruence.
  Qed.

  (** Slices of one block that come from different blocks are disjoint. *)
  Lemma osl_disjoint i i' j sl sl' l : valid_index (p_shape A) i -> valid_index (p_shape A) i' ->
    valid_index (p_shape B) j -> osl LB j LA i = Some sl -> osl LB j LA i' = Some sl' ->
    in_slice sl l = true -> in_slice sl' l = true -> i = i'.
  Proof.
    intros Hi Hi' Hj Ho Ho' H1 H2.
    assert (Hl : length l = length LB).
    { rewrite <- (osl_len i j sl); auto. symmetry. now apply in_slice_length. }
    apply (osl_points i j) in H1; auto. apply (osl_points i' j) in H2; auto.
    apply (layout_tiles_unique LA (vadd (block_lo LB j) l)); auto; rewrite ?HWA; tauto.
  Qed.

  (** ** Matching *)

  Definition talk (s d : Z) : bool :=
    match index_in A s, index_in B d with
    | Some i, Some j => match osl LA i LB j with Some _ => negb (s =? d) | None => false end
    | _, _ => false
    end.

  Lemma local_no_sends d t (f : @rst R -> @rst R) (b : bool) :
    sends_in (M := @rmsg R) d t (if b then [ALocal f] else []) = 0%nat.
  Proof. now destruct b. Qed.
  Lemma local_no_recvs d t (f : @rst R -> @rst R) (b : bool) :
    recvs_in (M := @rmsg R) d t (if b then [ALocal f] else []) = 0%nat.
  Proof. now destruct b. Qed.

  Lemma sends_count s d t :
    sends_in d t (sends s) = if (t =? tag) && talk s d then 1%nat else 0%nat.
  Proof.
    unfold sends, talk, sends_in. destruct (index_in A s) as [i|] eqn:Ei; [|now rewrite andb_false_r].
    destruct (index_in B d) as [j|] eqn:Ej.
    - apply index_in_valid in Ej as [Hj Hd]; auto.
      rewrite (count_map_unique _ _ _ j).
      + rewrite Hd. destruct (osl LA i LB j) as [sl|]; [|now rewrite andb_false_r].
        rewrite (Z.eqb_sym s d). destruct (d =? s) eqn:Es.
        * cbn. now rewrite andb_false_r.
        * unfold is_send. rewrite Z.eqb_refl, (Z.eqb_sym tag t). cbn [negb].
          now destruct (t =? tag).
      + apply range_index_nodup.
      + now apply in_range_index.
      + intros j' Hj' Hp. apply in_range_index in Hj'. destruct (osl LA i LB j'); [|discriminate].
        destruct (wk B j' =? s); [discriminate|]. unfold is_send in Hp. breflect.
        apply (wk_inj B); auto. congruence.
    - rewrite andb_false_r. apply count_map_none. intros j' Hj'. apply in_range_index in Hj'.
      destruct (osl LA i LB j'); auto. destruct (wk B j' =? s); auto. unfold is_send.
      destruct (Z.eqb_spec (wk B j') d) as [E|E]; auto. exfalso.
      apply index_in_none in Ej. apply Ej. rewrite <- E. now apply wk_In.
  Qed.

  Lemma recvs_count s d t :
    recvs_in s t (recvs d) = if (t =? tag) && talk s d then 1%nat else 0%nat.
  Proof.
    unfold recvs, talk, recvs_in. destruct (index_in B d) as [j|] eqn:Ej.
    2:{ destruct (index_in A s); now rewrite andb_false_r. }
    apply index_in_valid in Ej as [Hj Hd]; auto.
    destruct (index_in A s) as [i|] eqn:Ei.
    - apply index_in_valid in Ei as [Hi Hs]; auto.
      rewrite (count_map_unique _ _ _ i).
      + rewrite Hs. destruct (osl LB j LA i) as [sl|] eqn:Eo.
        * destruct (osl LA i LB j) eqn:Eo'. 2:{ apply osl_sym in Eo'; auto. congruence. }
          destruct (s =? d) eqn:Es; [cbn; now rewrite andb_false_r|].
          unfold is_recv. rewrite Z.eqb_refl, (Z.eqb_sym tag t). cbn [negb]. now destruct (t =? tag).
        * apply osl_sym in Eo; auto. rewrite Eo. now rewrite andb_false_r.
      + apply range_index_nodup.
      + now apply in_range_index.
      + intros i' Hi' Hp. apply in_range_index in Hi'. destruct (osl LB j LA i'); [|discriminate].
        destruct (wk A i' =? d); [discriminate|]. unfold is_recv in Hp. breflect.
        apply (wk_inj A); auto. congruence.
    - rewrite andb_false_r. apply count_map_none. intros i' Hi'. apply in_range_index in Hi'.
      destruct (osl LB j LA i'); auto. destruct (wk A i' =? d); auto. unfold is_recv.
      destruct (Z.eqb_spec (wk A i') s) as [E|E]; auto. exfalso.
      apply index_in_none in Ei. apply Ei. rewrite <- E. now apply wk_In.
  Qed.

  Lemma sends_no_recv v a : In a (sends v) -> match a with ARecv _ _ _ | ALocal _ => False | _ => True end.
  Proof.
    unfold sends. destruct (index_in A v); [|easy]. intros H. apply in_map_iff in H as (j & <- & _).
    destruct (osl _ _ _ _); auto. now destruct (_ =? _).
  Qed.
  Lemma recvs_no_send v a : In a (recvs v) -> match a with ASend _ _ _ | ALocal _ => False | _ => True end.
  Proof.
    unfold recvs. destruct (index_in B v); [|easy]. intros H. apply in_map_iff in H as (j & <- & _).
    destruct (osl _ _ _ _); auto. now destruct (_ =? _).
  Qed.

  Lemma count_zero {T} (p : T -> bool) l : (forall a, In a l -> p a = false) -> length (filter p l) = 0%nat.
  Proof.
    induction l as [|a l IH]; intros H; auto. simpl. rewrite H by now left. apply IH. intros; apply H. now right.
  Qed.

  Lemma talk_inside s d : talk s d = true -> In s U /\ In d U.
  Proof.
    unfold talk. destruct (index_in A s) as [i|] eqn:Ei; [|discriminate].
    destruct (index_in B d) as [j|] eqn:Ej; [|discriminate]. intros _.
    apply index_in_valid in Ei as [Hi <-]; auto. apply index_in_valid in Ej as [Hj <-]; auto.
    split; [apply HAU|apply HBU]; now apply wk_In.
  Qed.

  Lemma round_sends s d t :
    sends_in d t (xfer_round s) = if (t =? tag) && talk s d then 1%nat else 0%nat.
  Proof.
    destruct (is_active U s) eqn:E.
    - apply is_active_spec in E. rewrite round_eq, !sends_app by auto.
      rewrite !local_no_sends, sends_count.
      replace (sends_in d t (recvs s)) with 0%nat; [simpl; lia|].
      symmetry. apply count_zero. intros a Ha. apply recvs_no_send in Ha. now destruct a.
    - unfold xfer_round. rewrite E. apply is_active_false in E. cbn.
      destruct (talk s d) eqn:Et; [|now rewrite andb_false_r]. apply talk_inside in Et. tauto.
  Qed.

  Lemma round_recvs s d t :
    recvs_in s t (xfer_round d) = if (t =? tag) && talk s d then 1%nat else 0%nat.
  Proof.
    destruct (is_active U d) eqn:E.
    - apply is_active_spec in E. rewrite round_eq, !recvs_app by auto.
      rewrite !local_no_recvs, recvs_count.
      replace (recvs_in s t (sends d)) with 0%nat; [simpl; lia|].
      symmetry. apply count_zero. intros a Ha. apply sends_no_recv in Ha. now destruct a.
    - unfold xfer_round. rewrite E. apply is_active_false in E. cbn.
      destruct (talk s d) eqn:Et; [|now rewrite andb_false_r]. apply talk_inside in Et. tauto.
  Qed.

  (** ** The round is well-behaved *)

  Lemma self_copy_proper l1 l2 s s' : eqS s s' -> eqS (self_copy l1 l2 s) (self_copy l1 l2 s').
  Proof.
    intros H. unfold self_copy. destruct (self_slice l1), (self_slice l2); auto.
    apply set_out_proper; auto; [|now destruct H].
    apply write_proper; [|apply read_proper]; now destruct H.
  Qed.

  Lemma unpack_proper sl m m' s s' : eqM m m' -> eqS s s' -> eqS (unpack sl m s) (unpack sl m' s').
  Proof.
    intros Hm H. destruct m, m'; simpl in *; try easy.
    apply set_out_proper; auto; [|now destruct H]. apply write_proper; auto. now destruct H.
  Qed.

  Lemma unpack_commute sl sl' m m' s : (forall l, in_slice sl l = true -> in_slice sl' l = true -> False) ->
    eqS (unpack sl m (unpack sl' m' s)) (unpack sl' m' (unpack sl m s)).
  Proof.
    intros H. destruct m as [|m], m' as [|m']; simpl; try reflexivity.
    constructor; simpl; try reflexivity; [|apply hist_refl].
    unfold write_slice. destruct (zlist_eqb (tshape m) _), (zlist_eqb (tshape m') _); try reflexivity.
    split; simpl; auto. intros l. specialize (H l). destruct (in_slice sl l), (in_slice sl' l); auto. exfalso. auto.
  Qed.

  Lemma round_proper v a : In a (xfer_round v) -> act_proper eqS eqM a.
  Proof.
    destruct (is_active U v) eqn:E.
    - apply is_active_spec in E. rewrite round_eq by auto. rewrite !in_app_iff.
      intros [H|[H|[H|[H|H]]]].
      + destruct H as [<-|[]]. simpl. intros s s' Hs. apply set_out_proper; auto. now apply default_out_proper.
      + unfold recvs in H. destruct (index_in B v); [|easy]. apply in_map_iff in H as (i & <- & _).
        destruct (osl _ _ _ _); [|exact I]. destruct (_ =? _); [exact I|]. simpl. intros. now apply unpack_proper.
      + unfold sends in H. destruct (index_in A v); [|easy]. apply in_map_iff in H as (i & <- & _).
        destruct (osl _ _ _ _); [|exact I]. destruct (_ =? _); [exact I|]. simpl. intros s s' Hs.
        apply read_proper. now destruct Hs.
      + destruct (is_active _ _); [|easy]. destruct H as [<-|[]]. simpl. intros s s' Hs.
        apply set_out_proper; auto; [reflexivity|now destruct Hs].
      + destruct (_ && _); [|easy]. destruct H as [<-|[]]. simpl. intros. now apply self_copy_proper.
    - unfold xfer_round. rewrite E. intros [<-|[]]. simpl. intros s s' Hs.
      apply set_out_proper; auto; now destruct Hs.
  Qed.

  Lemma act_commute_l (a b : action) : match a with ARecv _ _ _ => False | _ => True end -> act_commute eqS a b.
  Proof. destruct a; simpl; tauto. Qed.
  Lemma act_commute_r (a b : action) : match b with ARecv _ _ _ => False | _ => True end -> act_commute eqS a b.
  Proof. destruct a, b; simpl; tauto. Qed.

  Lemma FOP_free (l : list action) : (forall a, In a l -> match a with ARecv _ _ _ => False | _ => True end) ->
    ForallOrdPairs (act_commute eqS) l.
  Proof.
    induction l as [|a l IH]; intros H; constructor.
    - apply Forall_forall. intros b _. apply act_commute_l. apply H. now left.
    - apply IH. intros; apply H. now right.
  Qed.

  Lemma round_commute v : ForallOrdPairs (act_commute eqS) (xfer_round v).
  Proof.
    destruct (is_active U v) eqn:E.
    - apply is_active_spec in E. rewrite round_eq by auto.
      apply FOP_app; [repeat constructor| |].
      2:{ intros a b [<-|[]] _. exact I. }
      apply FOP_app.
      + unfold recvs. destruct (index_in B v) as [j|] eqn:Ej; [|constructor].
        apply index_in_valid in Ej as [Hj _]; auto.
        apply FOP_map_nodup; [apply range_index_nodup|].
        intros i i' Hi Hi' Hne. apply in_range_index in Hi, Hi'.
        destruct (osl LB j LA i) as [sl|] eqn:Eo; [|exact I].
        destruct (wk A i =? v); [exact I|].
        destruct (osl LB j LA i') as [sl'|] eqn:Eo'; [|exact I].
        destruct (wk A i' =? v); [exact I|].
        simpl. intros m m' s. apply unpack_commute. intros l H1 H2. apply Hne.
        apply (osl_disjoint i i' j sl sl' l); auto.
      + apply FOP_free. intros a. rewrite !in_app_iff. intros [H|[H|H]].
        * apply sends_no_recv in H. now destruct a.
        * destruct (is_active _ _); [|easy]. now destruct H as [<-|[]].
        * destruct (_ && _); [|easy]. now destruct H as [<-|[]].
      + intros a b _ Hb. apply act_commute_r. rewrite !in_app_iff in Hb. destruct Hb as [H|[H|H]].
        * apply sends_no_recv in H. now destruct b.
        * destruct (is_active _ _); [|easy]. now destruct H as [<-|[]].
        * destruct (_ && _); [|easy]. now destruct H as [<-|[]].
    - unfold xfer_round. rewrite E. repeat constructor.
  Qed.

  Lemma xfer_round_ok workers : (forall v, In v U -> In v workers) -> round_ok workers eqS eqM xfer_round.
  Proof.
    intros HU. constructor.
    - intros w d t _ H. rewrite round_sends in H. apply HU.
      destruct (talk w d) eqn:E; [apply talk_inside in E; tauto|rewrite andb_false_r in H; lia].
    - intros w s t _ H. rewrite round_recvs in H. apply HU.
      destruct (talk s w) eqn:E; [apply talk_inside in E; tauto|rewrite andb_false_r in H; lia].
    - intros s d t _ _. rewrite round_sends, round_recvs. destruct (_ && _); lia.
    - intros w a _. apply round_proper.
    - intros w _. apply round_commute.
  Qed.

  (** ** The result in lock-step *)

  Lemma acts_free (l : list action) s : no_local l -> acts_run l s = s.
  Proof. apply no_local_run. Qed.

  Lemma pay_sends v d t (s : @rst R) i j : index_in A v = Some i -> index_in B d = Some j -> v <> d ->
    pay d t (sends v) s =
    if t =? tag then match osl LA i LB j with Some sl => [inr (read_slice (r_in s) sl)] | None => [] end else [].
  Proof.
    intros Hi Hj Hne.
    assert (Hc := sends_count v d t). unfold talk in Hc. rewrite Hi, Hj in Hc.
    destruct (t =? tag) eqn:Et.
    2:{ apply pay_none. now rewrite Hc. }
    destruct (osl LA i LB j) as [sl|] eqn:Eo.
    2:{ apply pay_none. now rewrite Hc. }
    breflect. subst t. apply index_in_valid in Hj as [Hj Hd]; auto. subst d.
    pose proof (range_index_nth_row_major _ _ Hj) as Hk.
    assert (E1 : nth_error (sends v) (Z.to_nat (row_major (p_shape B) j)) =
                 Some (ASend (wk B j) tag (fun s => inr (read_slice (r_in s) sl)))).
    { unfold sends. rewrite Hi. erewrite map_nth_error; [|exact Hk]. rewrite Eo.
      destruct (Z.eqb_spec (wk B j) v); [congruence|reflexivity]. }
    rewrite (pay_unique _ _ _ s _ _ (fun a Ha => match a as a return
      (match a with ARecv _ _ _ | ALocal _ => False | _ => True end ->
       match a with ALocal _ => False | _ => True end) with
      | ALocal _ => fun F => F | _ => fun _ => I end (sends_no_recv v a Ha)) E1); [reflexivity|].
    - intros k a Hka Hp. unfold sends in Hka. rewrite Hi in Hka. rewrite nth_error_map in Hka.
      destruct (nth_error (range_index (p_shape B)) k) as [j'|] eqn:Ek; [|discriminate].
      simpl in Hka. inversion Hka as [Ea]. clear Hka. rewrite <- Ea in Hp.
      assert (Hj' : valid_index (p_shape B) j') by (apply in_range_index; eapply nth_error_In; eauto).
      destruct (osl LA i LB j'); [|discriminate]. destruct (wk B j' =? v); [discriminate|].
      unfold is_send in Hp. breflect.
      assert (j' = j) by (apply (wk_inj B); auto). subst j'.
      eapply NoDup_nth_error_inj; [apply range_index_nodup| |]; eauto.
  Qed.

  Lemma pay_round v d t (s : @rst R) i j : index_in A v = Some i -> index_in B d = Some j -> v <> d ->
    pay d t (xfer_round v) s =
    if t =? tag then match osl LA i LB j with Some sl => [inr (read_slice (r_in s) sl)] | None => [] end else [].
  Proof.
    intros Hi Hj Hne.
    assert (Hv : In v U).
    { apply index_in_valid in Hi as [Hi <-]; auto. apply HAU. now apply wk_In. }
    rewrite round_eq by auto. rewrite !pay_app.
    rewrite (pay_none d t (recvs v)).
    2:{ apply count_zero. intros a Ha. apply recvs_no_send in Ha. now destruct a. }
    rewrite (acts_free (recvs v)).
    2:{ intros a Ha. apply recvs_no_send in Ha. now destruct a. }
    rewrite (pay_none _ _ [ALocal _]) by reflexivity.
    rewrite (pay_none _ _ (if is_active (p_ranks B) v then _ else _)) by apply local_no_sends.
    rewrite (pay_none _ _ (if _ && _ then _ else _)) by apply local_no_sends.
    rewrite (pay_sends v d t _ i j) by auto. rewrite !app_nil_r. cbn [app]. reflexivity.
  Qed.

  (** The slice of a worker's block that it keeps. *)
  Lemma self_slice_AB v : self_slice (ents U LA A LB B v) =
    match index_in A v, index_in B v with Some i, Some j => osl LA i LB j | _, _ => None end.
  Proof.
    unfold self_slice, ents. destruct (index_in A v) as [i|]; auto.
    destruct (index_in B v) as [j|] eqn:Ej.
    - apply index_in_valid in Ej as [Hj Hv]; auto.
      rewrite (find_map_unique _ _ _ j).
      + unfold ent. rewrite Hv, Z.eqb_refl. now destruct (osl LA i LB j).
      + now apply in_range_index.
      + intros j' Hj' Hp. apply in_range_index in Hj'. unfold ent in Hp.
        destruct (osl LA i LB j'); [|discriminate]. destruct (Z.eqb_spec (wk B j') v); [|discriminate].
        apply (wk_inj B); auto. congruence.
    - rewrite find_map_none; auto. intros j' Hj'. apply in_range_index in Hj'. unfold ent.
      destruct (osl LA i LB j'); auto. destruct (Z.eqb_spec (wk B j') v) as [E|E]; auto.
      exfalso. apply index_in_none in Ej. apply Ej. rewrite <- E. now apply wk_In.
  Qed.

  Lemma self_slice_BA v : self_slice (ents U LB B LA A v) =
    match index_in B v, index_in A v with Some j, Some i => osl LB j LA i | _, _ => None end.
  Proof.
    unfold self_slice, ents. destruct (index_in B v) as [i|]; auto.
    destruct (index_in A v) as [j|] eqn:Ej.
    - apply index_in_valid in Ej as [Hj Hv]; auto.
      rewrite (find_map_unique _ _ _ j).
      + unfold ent. rewrite Hv, Z.eqb_refl. now destruct (osl LB i LA j).
      + now apply in_range_index.
      + intros j' Hj' Hp. apply in_range_index in Hj'. unfold ent in Hp.
        destruct (osl LB i LA j'); [|discriminate]. destruct (Z.eqb_spec (wk A j') v); [|discriminate].
        apply (wk_inj A); auto. congruence.
    - rewrite find_map_none; auto. intros j' Hj'. apply in_range_index in Hj'. unfold ent.
      destruct (osl LB i LA j'); auto. destruct (Z.eqb_spec (wk A j') v) as [E|E]; auto.
      exfalso. apply index_in_none in Ej. apply Ej. rewrite <- E. now apply wk_In.
  Qed.

  (** One received part, by index of the sender. *)
  Definition part_in (S0 : Z -> @rst R) (j : list Z) (v : Z) (i : list Z) (s : @rst R) : @rst R :=
    match osl LB j LA i, osl LA i LB j with
    | Some sb, Some sa => if wk A i =? v then s else unpack sb (inr (read_slice (r_in (S0 (wk A i))) sa)) s
    | _, _ => s
    end.

  Lemma unpack_recvs S0 v j s : index_in B v = Some j ->
    unpack_all (fun src t => pay v t (xfer_round src) (S0 src)) (recvs v) s =
    fold_left (fun s i => part_in S0 j v i s) (range_index (p_shape A)) s.
  Proof.
    intros Hj. unfold recvs. rewrite Hj. pose proof Hj as Hj0.
    apply index_in_valid in Hj as [Hj Hv]; auto.
    assert (G : forall l s, (forall i, In i l -> valid_index (p_shape A) i) ->
      unpack_all (fun src t => pay v t (xfer_round src) (S0 src))
        (map (fun i => match osl LB j LA i with
                       | Some sl => if wk A i =? v then ANull else ARecv (wk A i) tag (unpack sl)
                       | None => ANull end) l) s =
      fold_left (fun s i => part_in S0 j v i s) l s).
    { clear s. induction l as [|i l IH]; intros s Hl; auto. cbn [map fold_left].
      assert (Hi : valid_index (p_shape A) i) by (apply Hl; now left).
      assert (Hl' : forall i, In i l -> valid_index (p_shape A) i) by (intros; apply Hl; now right).
      unfold part_in at 2. destruct (osl LB j LA i) as [sb|] eqn:Eb.
      2:{ simpl. apply IH; auto. }
      destruct (osl LA i LB j) as [sa|] eqn:Ea.
      2:{ apply osl_sym in Ea; auto. congruence. }
      destruct (wk A i =? v) eqn:E; [simpl; apply IH; auto|]. breflect.
      cbn [unpack_all].
      rewrite (pay_round (wk A i) v tag (S0 (wk A i)) i j); auto using index_wk.
      rewrite Z.eqb_refl, Ea. apply IH; auto. }
    apply G. intros i Hi. now apply in_range_index.
  Qed.

  Definition same_rest (s s' : @rst R) : Prop :=
    r_in s' = r_in s /\ r_rg s' = r_rg s /\ r_flag s' = r_flag s /\ r_hist s' = r_hist s.

  Lemma same_rest_refl s : same_rest s s.
  Proof. repeat split. Qed.
  Lemma same_rest_trans a b c : same_rest a b -> same_rest b c -> same_rest a c.
  Proof. unfold same_rest. intuition congruence. Qed.

  Lemma part_in_rest S0 j v i s :
    same_rest s (part_in S0 j v i s) /\ r_outrg (part_in S0 j v i s) = r_outrg s /\
    tshape (r_out (part_in S0 j v i s)) = tshape (r_out s).
  Proof.
    unfold part_in. destruct (osl LB j LA i); [|repeat split]. destruct (osl LA i LB j); [|repeat split].
    destruct (_ =? _); [repeat split|]. simpl. repeat split. unfold write_slice. now destruct (zlist_eqb _ _).
  Qed.

  Lemma parts_rest S0 j v l : forall s, let s' := fold_left (fun s i => part_in S0 j v i s) l s in
    same_rest s s' /\ r_outrg s' = r_outrg s /\ tshape (r_out s') = tshape (r_out s).
  Proof.
    cbv zeta. induction l as [|i l IH]; intros s; simpl; [repeat split|].
    destruct (IH (part_in S0 j v i s)) as (H1 & H2 & H3).
    destruct (part_in_rest S0 j v i s) as (G1 & G2 & G3).
    split; [eapply same_rest_trans; eauto|]. split; congruence.
  Qed.

  Lemma part_in_other S0 j v i i0 s p : valid_index (p_shape A) i -> valid_index (p_shape A) i0 ->
    valid_index (p_shape B) j -> length p = length LB ->
    in_box (block_lo LA i0) (block_hi LA i0) (vadd (block_lo LB j) p) ->
    i <> i0 \/ wk A i = v ->
    tat (r_out (part_in S0 j v i s)) p = tat (r_out s) p.
  Proof.
    intros Hi Hi0 Hj Hp Hbox Hne. unfold part_in. destruct (osl LB j LA i) as [sb|] eqn:Eb; auto.
    destruct (osl LA i LB j) as [sa|] eqn:Ea; auto. destruct (wk A i =? v) eqn:E; auto. breflect.
    destruct Hne as [Hne|Hne]; [|contradiction].
    simpl. unfold write_slice. destruct (zlist_eqb _ _); auto. simpl.
    destruct (in_slice sb p) eqn:Ep; auto. exfalso. apply Hne.
    apply (osl_points i j) in Ep; auto.
    apply (layout_tiles_unique LA (vadd (block_lo LB j) p)); auto; rewrite ?HWA; tauto.
  Qed.

  Lemma parts_other S0 j v i0 p l : valid_index (p_shape A) i0 ->
    valid_index (p_shape B) j -> length p = length LB ->
    in_box (block_lo LA i0) (block_hi LA i0) (vadd (block_lo LB j) p) ->
    (forall i, In i l -> valid_index (p_shape A) i) ->
    ~ In i0 l \/ wk A i0 = v -> forall s,
    tat (r_out (fold_left (fun s i => part_in S0 j v i s) l s)) p = tat (r_out s) p.
  Proof.
    intros Hi0 Hj Hp Hbox. induction l as [|i l IH]; intros Hl Hne s; auto. simpl. rewrite IH.
    - apply (part_in_other S0 j v i i0); auto; [apply Hl; now left|].
      destruct Hne as [Hne|Hne].
      + left. intros ->. apply Hne. now left.
      + destruct (list_eq_dec Z.eq_dec i i0) as [->|]; auto.
    - intros k Hk. apply Hl. now right.
    - destruct Hne as [Hne|Hne]; auto. left. intros C. apply Hne. now right.
  Qed.

  Lemma write_hit (t x : tensor) i j sa sb p : valid_index (p_shape A) i -> valid_index (p_shape B) j ->
    osl LA i LB j = Some sa -> osl LB j LA i = Some sb -> length p = length LB ->
    in_box (block_lo LB j) (block_hi LB j) (vadd (block_lo LB j) p) ->
    in_box (block_lo LA i) (block_hi LA i) (vadd (block_lo LB j) p) ->
    tat (write_slice t sb (read_slice x sa)) p = tat x (vsub (vadd (block_lo LB j) p) (block_lo LA i)).
  Proof.
    intros Hi Hj Ha Hb Hp H1 H2. unfold write_slice. cbn [tshape read_slice].
    rewrite (osl_shapes i j sa sb), zlist_eqb_refl by auto. simpl.
    assert (in_slice sb p = true) as -> by (apply (osl_points i j); auto).
    now rewrite (osl_shift i j).
  Qed.

  Lemma osl_hit i j g : valid_index (p_shape A) i -> valid_index (p_shape B) j ->
    in_box (block_lo LA i) (block_hi LA i) g -> in_box (block_lo LB j) (block_hi LB j) g ->
    exists sa sb, osl LA i LB j = Some sa /\ osl LB j LA i = Some sb.
  Proof.
    intros Hi Hj H1 H2.
    assert (osl LA i LB j <> None).
    { destruct (lengths i j Hi Hj) as (E1 & E2 & E3).
      pose proof (block_lo_length LA i E1). pose proof (block_hi_length LA i E1).
      pose proof (block_lo_length LB j E2). pose proof (block_hi_length LB j E2).
      unfold osl. change compute_subtensor_intersection_slice with overlap_core. intros C.
      apply overlap_core_none in C; try congruence. apply C; eauto. }
    destruct (osl LA i LB j) as [sa|] eqn:Ea; [|congruence].
    destruct (osl LB j LA i) as [sb|] eqn:Eb; [eauto|]. apply osl_sym in Eb; auto. congruence.
  Qed.

  (** What a receiving worker ends up with: its block, each element from the
      worker of A whose block contains it. *)
  Lemma xfer_value S0 v j : index_in B v = Some j ->
    let s' := sync1 xfer_round S0 v in
    same_rest (S0 v) s' /\ r_outrg s' = r_flag (S0 v) /\ tshape (r_out s') = block_shape LB j /\
    forall p i, valid_index (block_shape LB j) p -> valid_index (p_shape A) i ->
      in_box (block_lo LA i) (block_hi LA i) (vadd (block_lo LB j) p) ->
      tat (r_out s') p = tat (r_in (S0 (wk A i))) (vsub (vadd (block_lo LB j) p) (block_lo LA i)).
  Proof.
    intros Hj. cbv zeta. pose proof Hj as Hj0. apply index_in_valid in Hj as [Hj Hv]; auto.
    assert (HvU : In v U) by (rewrite <- Hv; apply HBU; now apply wk_In).
    unfold sync1. rewrite (round_eq v HvU).
    rewrite !unpack_all_app, !acts_run_app.
    rewrite (acts_free (recvs v)).
    2:{ intros a Ha. apply recvs_no_send in Ha. now destruct a. }
    rewrite (acts_free (sends v)).
    2:{ intros a Ha. apply sends_no_recv in Ha. now destruct a. }
    cbn [acts_run]. rewrite (index_active_some _ _ _ Hj0). rewrite andb_true_r. cbn [acts_run].
    cbn [unpack_all].
    rewrite (unpack_recvs _ _ j) by auto.
    rewrite (unpack_all_none _ (sends v)).
    2:{ intros a Ha. apply sends_no_recv in Ha. now destruct a. }
    match goal with |- context [unpack_all ?m (if ?b then ?x else ?y) ?z] =>
      rewrite (unpack_all_none m (if b then x else y) z)
        by (intros a Ha; destruct b; [now destruct Ha as [<-|[]]|easy]) end.
    set (s0 := set_out (mkt (outshape v) (fun _ => rzero)) (r_flag _) _).
    set (s1 := acts_run (if is_active (p_ranks A) v then _ else _) s0).
    assert (E1 : s1 = match index_in A v with
                      | Some i => match osl LA i LB j, osl LB j LA i with
                                  | Some sa, Some sb => set_out (write_slice (r_out s0) sb (read_slice (r_in (S0 v)) sa)) (r_flag (S0 v)) s0
                                  | _, _ => s0 end
                      | None => s0 end).
    { unfold s1. destruct (index_in A v) as [i|] eqn:Ei.
      - rewrite (index_active_some _ _ _ Ei). cbn [acts_run]. unfold self_copy.
        rewrite self_slice_AB, self_slice_BA, Hj0, Ei.
        destruct (osl LA i LB j), (osl LB j LA i); auto.
      - rewrite (index_active _ _ Ei). reflexivity. }
    assert (Hs1 : same_rest (S0 v) s1 /\ r_outrg s1 = r_flag (S0 v) /\ tshape (r_out s1) = block_shape LB j).
    { rewrite E1. assert (G : same_rest (S0 v) s0 /\ r_outrg s0 = r_flag (S0 v) /\ tshape (r_out s0) = block_shape LB j).
      { unfold s0. simpl. rewrite (Hout v j) by auto. repeat split. }
      destruct (index_in A v) as [i|]; auto. destruct (osl LA i LB j), (osl LB j LA i); auto.
      destruct G as (G1 & G2 & G3). split; [destruct G1 as (?&?&?&?); repeat split; auto|].
      split; auto. simpl. unfold write_slice. destruct (zlist_eqb _ _); auto. }
    destruct (parts_rest S0 j v (range_index (p_shape A)) s1) as (F1 & F2 & F3).
    destruct Hs1 as (K1 & K2 & K3).
    split; [eapply same_rest_trans; eauto|]. split; [congruence|]. split; [congruence|].
    intros p i Hp Hi Hbox.
    assert (HpL : length p = length LB).
    { apply valid_index_length in Hp. destruct (lengths i j Hi Hj) as (? & ? & ?).
      rewrite block_shape_length in Hp; auto. }
    assert (HboxB : in_box (block_lo LB j) (block_hi LB j) (vadd (block_lo LB j) p)).
    { destruct (lengths i j Hi Hj) as (? & ? & ?). rewrite block_hi_lo by auto.
      apply box_local_global; auto. rewrite block_lo_length, block_shape_length; auto. }
    destruct (osl_hit i j _ Hi Hj Hbox HboxB) as (sa & sb & Ea & Eb).
    destruct (Z.eq_dec (wk A i) v) as [E|E].
    - rewrite (parts_other S0 j v i p); auto.
      + rewrite E1. assert (Ei : index_in A v = Some i) by (rewrite <- E; now apply index_wk).
        rewrite Ei, Ea, Eb. rewrite E. cbn [r_out set_out]. now rewrite (write_hit _ _ i j).
      + intros k Hk. now apply in_range_index.
    - destruct (in_split_nodup i (range_index (p_shape A))) as (l1 & l2 & El & N1 & N2).
      { apply range_index_nodup. } { now apply in_range_index. }
      rewrite El, fold_left_app. cbn [fold_left].
      assert (Hval : forall k, In k (l1 ++ i :: l2) -> valid_index (p_shape A) k)
        by (intros k Hk; rewrite <- El in Hk; now apply in_range_index).
      rewrite (parts_other S0 j v i p l2); auto.
      2:{ intros k Hk. apply Hval. apply in_or_app. right. now right. }
      unfold part_in at 1. rewrite Ea, Eb. destruct (Z.eqb_spec (wk A i) v); [contradiction|].
      cbn [unpack r_out set_out]. now rewrite (write_hit _ _ i j).
  Qed.

  Lemma xfer_default S0 v : In v U -> index_in B v = None ->
    sync1 xfer_round S0 v = set_out (default_out preserve_batch (S0 v)) false (S0 v).
  Proof.
    intros Hv Hj. unfold sync1. rewrite (round_eq v Hv).
    rewrite !unpack_all_app, !acts_run_app.
    rewrite (acts_free (recvs v)).
    2:{ intros a Ha. apply recvs_no_send in Ha. now destruct a. }
    rewrite (acts_free (sends v)).
    2:{ intros a Ha. apply sends_no_recv in Ha. now destruct a. }
    rewrite (index_active _ _ Hj), andb_false_r. cbn [acts_run unpack_all].
    unfold recvs. rewrite Hj. cbn [unpack_all].
    rewrite unpack_all_none; auto. intros a Ha. apply sends_no_recv in Ha. now destruct a.
  Qed.

  Lemma xfer_outside S0 v : ~ In v U -> sync1 xfer_round S0 v = set_out (r_in (S0 v)) (r_rg (S0 v)) (S0 v).
  Proof.
    intros Hv. apply is_active_false in Hv. unfold sync1, xfer_round. rewrite Hv. reflexivity.
  Qed.
End Transfer.
