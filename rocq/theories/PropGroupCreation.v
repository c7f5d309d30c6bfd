(** C10: creating send/receive groups cannot deadlock. *)

From Coq Require Import Sorting.Sorted.
From Verif Require Import Prelude ModelSlicing ModelPartition ModelGroupCreation Collective SpecIndex
  SpecPartition ProofSlicing ProofPartition PropPartition.

(** The system of all workers [all] (active or not) running their calls. *)
Definition no_deadlock (all : list Z) (calls : Z -> list xcomm) (members : xcomm -> list Z) : Prop :=
  let step := cstep xcomm_eq_dec all (bprog xcomm_eq_dec calls) members in
  let reach := creach xcomm_eq_dec all (bprog xcomm_eq_dec calls) members in
  (* no reachable state is stuck *)
  (forall s, reach s -> ~ all_finished all (bprog xcomm_eq_dec calls) s -> exists s', step s s') /\
  (* every execution is finite *)
  (forall s, Acc (fun s2 s1 => step s1 s2) s) /\
  (* every maximal execution completes on all workers *)
  (forall s, reach s -> (forall s', ~ step s s') -> all_finished all (bprog xcomm_eq_dec calls) s).

Definition C10_statement : Prop :=
  forall Ps Pd (ts td : bool) all, part_ok Ps -> part_ok Pd -> p_root Ps = p_root Pd ->
  NoDup all -> (forall v, In v (p_ranks Ps) \/ In v (p_ranks Pd) -> In v all) ->
  no_deadlock all (broadcast_calls Ps Pd ts td) (xmembers (group_union (p_ranks Ps) (p_ranks Pd))) /\
  no_deadlock all (reduction_calls Ps Pd ts td) (xmembers (group_union (p_ranks Ps) (p_ranks Pd))).

Definition xlevel (N : nat) (c : xcomm) (n : nat) : nat :=
  match c with
  | XRoot => 0
  | XUnion => if (n <=? 12)%nat then n else (14 + N)%nat
  | XGroup g => (13 + Z.to_nat (hd 0%Z g))%nat
  end.

(** What the calls look like on the union's workers, abstractly. *)
Definition groups_wf (U : list Z) (gc : Z -> list (list Z)) : Prop :=
  forall w, In w U ->
    NoDup (gc w) /\
    StronglySorted (fun a b => hd 0 a < hd 0 b) (gc w) /\
    (length (gc w) <= 2)%nat /\
    forall g, In g (gc w) -> 0 <= hd 0 g < Z.of_nat (length U) /\
      forall m, In m (incl_ranks U g) -> In m U /\ In g (gc m).

Lemma no_deadlock_of_groups all U gc calls : NoDup all -> (forall v, In v U -> In v all) ->
  groups_wf U gc ->
  (forall w, ~ In w U -> calls w = []) ->
  (forall w, In w U -> calls w = cross_calls true (Ok (mkcross None None (gc w)))) ->
  no_deadlock all calls (xmembers U).
Proof.
  intros HN Hin HG Hout Hcalls.
  assert (HM : matched_calls xcomm_eq_dec all (bprog xcomm_eq_dec calls) (xmembers U)).
  { apply blocking_matched. intros w c Hw Hc m Hm.
    destruct (in_dec Z.eq_dec w U) as [Iw|Iw]; [|rewrite Hout in Hc by auto; easy].
    rewrite (Hcalls w Iw) in Hc |- *.
    assert (HX : forall gs, count_occ xcomm_eq_dec (map XGroup gs) XRoot = 0%nat /\
                 count_occ xcomm_eq_dec (map XGroup gs) XUnion = 0%nat).
    { induction gs as [|g gs [IH1 IH2]]; simpl; auto. }
    destruct c as [| |g].
    - simpl in Hm. split; auto. rewrite (Hcalls m Hm). cbn [cross_calls negb x_calls].
      rewrite !count_occ_app, !(proj1 (HX _)). simpl. lia.
    - simpl in Hm. split; auto. rewrite (Hcalls m Hm). cbn [cross_calls negb x_calls].
      rewrite !count_occ_app, !(proj2 (HX _)). simpl. lia.
    - assert (HgI : forall u, In u U -> In (XGroup g) (cross_calls true (Ok (mkcross None None (gc u)))) -> In g (gc u)).
      { intros u _ Hu. cbn [cross_calls negb x_calls] in Hu. unfold broadcast_data_calls in Hu.
        repeat (simpl in Hu; rewrite ?in_app_iff in Hu).
        repeat (destruct Hu as [Hu|Hu]; [discriminate|]).
        destruct Hu as [Hu|Hu].
        - apply in_map_iff in Hu as (g' & E & Hg'). congruence.
        - destruct Hu as [Hu|[]]. discriminate. }
      specialize (HgI w Iw Hc). destruct (HG w Iw) as (ND & _ & _ & Hmem).
      destruct (Hmem g HgI) as [_ Hm2]. destruct (Hm2 m Hm) as [Im Hgm]. split; auto.
      rewrite (Hcalls m Im). cbn [cross_calls negb x_calls]. rewrite !count_occ_app.
      assert (HC : forall gs, count_occ xcomm_eq_dec (map XGroup gs) (XGroup g) =
                    count_occ (list_eq_dec Z.eq_dec) gs g).
      { induction gs as [|h gs IH]; auto. cbn [map count_occ].
        destruct (xcomm_eq_dec (XGroup h) (XGroup g)), (list_eq_dec Z.eq_dec h g); congruence. }
      rewrite !HC.
      assert (count_occ (list_eq_dec Z.eq_dec) (gc w) g <= 1)%nat
        by (apply (NoDup_count_occ (list_eq_dec Z.eq_dec)); auto).
      assert (count_occ (list_eq_dec Z.eq_dec) (gc m) g > 0)%nat by now apply count_occ_In.
      lia. }
  assert (HL : levelled xcomm_eq_dec all (bprog xcomm_eq_dec calls) (xlevel (length U))).
  { apply sorted_levelled. intros w Hw.
    destruct (in_dec Z.eq_dec w U) as [Iw|Iw]; [|rewrite Hout by auto; constructor].
    rewrite (Hcalls w Iw). destruct (HG w Iw) as (_ & HS & HLen & Hmem).
    cbn [cross_calls negb x_calls].
    destruct (gc w) as [|a [|b [|? ?]]]; [| | |simpl in HLen; lia].
    - simpl. repeat (constructor; [|repeat (constructor; [lia|]); constructor]). constructor.
    - destruct (Hmem a (or_introl eq_refl)) as [Ha _].
      simpl. repeat (constructor; [|repeat (constructor; [lia|]); constructor]). constructor.
    - destruct (Hmem a (or_introl eq_refl)) as [Ha _].
      destruct (Hmem b (or_intror (or_introl eq_refl))) as [Hb _].
      assert (hd 0 a < hd 0 b) by (inv HS; inv H2; auto).
      simpl. repeat (constructor; [|repeat (constructor; [lia|]); constructor]). constructor. }
  split; [|split].
  - intros s Hr Hn. eapply collective_progress; eauto.
  - intros s. now apply collective_terminates.
  - intros s Hr Hmax. eapply collective_completes; eauto.
Qed.

Lemma no_deadlock_raise all U calls : NoDup all -> (forall v, In v U -> In v all) ->
  (forall w, ~ In w U -> calls w = []) ->
  (forall w, In w U -> exists e, calls w = cross_calls true (Raise e)) ->
  no_deadlock all calls (xmembers U).
Proof.
  intros HN Hin Hout Hcalls.
  assert (HM : matched_calls xcomm_eq_dec all (bprog xcomm_eq_dec calls) (xmembers U)).
  { apply blocking_matched. intros w c Hw Hc m Hm.
    destruct (in_dec Z.eq_dec w U) as [Iw|Iw]; [|rewrite Hout in Hc by auto; easy].
    destruct (Hcalls w Iw) as [e Ee]. rewrite Ee in Hc |- *.
    assert (Hc' : c = XRoot \/ c = XUnion) by (simpl in Hc; intuition).
    destruct Hc' as [->| ->]; simpl in Hm; (split; [auto|]);
      destruct (Hcalls m Hm) as [e' ->]; simpl; lia. }
  assert (HL : levelled xcomm_eq_dec all (bprog xcomm_eq_dec calls) (xlevel (length U))).
  { apply sorted_levelled. intros w Hw.
    destruct (in_dec Z.eq_dec w U) as [Iw|Iw]; [|rewrite Hout by auto; constructor].
    destruct (Hcalls w Iw) as [e ->]. simpl.
    repeat (constructor; [|repeat (constructor; [lia|]); constructor]). constructor. }
  split; [|split].
  - intros s Hr Hn. eapply collective_progress; eauto.
  - intros s. now apply collective_terminates.
  - intros s Hr Hmax. eapply collective_completes; eauto.
Qed.

(** The groups computed by broadcast and reduction are well formed. *)
Section Groups.
  Variables Ps Pd : part.
  Variables ts td : bool.
  Hypothesis Ps_ok : part_ok Ps.
  Hypothesis Pd_ok : part_ok Pd.
  Hypothesis compatible : bc_compatible (flip ts (p_shape Ps)) (flip td (p_shape Pd)).
  Variable U : list Z.
  Hypothesis U_nodup : NoDup U.
  Hypothesis U_in : forall v, In v U <-> In v (p_ranks Ps) \/ In v (p_ranks Pd).

  Notation sc := (scol Ps Pd ts td).
  Notation dc := (dcol Ps Pd ts td).
  Notation G := (grp Ps Pd ts td U).

  (** Colours of the groups a worker is in. *)
  Definition in_group (c w : Z) : Prop :=
    (In w (p_ranks Ps) /\ sc w = c) \/ (In w (p_ranks Pd) /\ dc w = c).

  Lemma in_group_root c w : in_group c w -> exists r, root_of Ps Pd ts td c r /\ 0 <= c.
  Proof.
    intros [[H E]|[H E]].
    - exists w. split; [split; auto|]. subst. now apply scol_nonneg.
    - destruct (source_of Ps Pd ts td Ps_ok Pd_ok compatible w H) as (r & Hr & Er).
      exists r. split; [split; auto; congruence|]. subst. now apply (dcol_bound Ps Pd ts td Pd_ok w).
  Qed.

  Lemma calls_spec w calls : In w U ->
    create_send_recv_calls (send_of Ps Pd ts td U w) (recv_of Ps Pd ts td U w) = Ok calls \/
    create_send_recv_calls (recv_of Ps Pd ts td U w) (send_of Ps Pd ts td U w) = Ok calls ->
    StronglySorted (fun a b => hd 0 a < hd 0 b) calls /\ (length calls <= 2)%nat /\
    (forall g, In g calls <-> exists c, in_group c w /\ g = G c).
  Proof.
    intros Hw Hcalls.
    assert (HH : forall c c', in_group c w -> in_group c' w -> G c = G c' \/ hd 0 (G c) <> hd 0 (G c')).
    { intros c c' H H'. destruct (in_group_root _ _ H) as (r & Hr & H0).
      destruct (in_group_root _ _ H') as (r' & Hr' & H0').
      destruct (Z.eq_dec (hd 0 (G c)) (hd 0 (G c'))) as [E|E]; auto. left.
      f_equal. exact (grp_root_inj Ps Pd ts td Ps_ok compatible U U_nodup U_in c c' r r' Hr Hr' H0 H0' E). }
    assert (HC : forall c, in_group c w -> exists a l, G c = a :: l).
    { intros c H. destruct (in_group_root _ _ H) as (r & Hr & H0).
      destruct (grp_spec Ps Pd ts td Ps_ok compatible U U_nodup U_in c r Hr H0) as (_ & _ & (r0 & g & E & _) & _).
      eauto. }
    assert (Two : forall c c' calls, in_group c w -> in_group c' w ->
       create_send_recv_calls (Some (G c)) (Some (G c')) = Ok calls ->
       StronglySorted (fun a b => hd 0 a < hd 0 b) calls /\ (length calls <= 2)%nat /\
       forall g, In g calls <-> g = G c \/ g = G c').
    { intros c c' cl H H' E. unfold create_send_recv_calls in E.
      destruct (HC c H) as (a & l & Ea). destruct (HC c' H') as (b & l' & Eb).
      destruct (HH c c' H H') as [Eq|Ne].
      - rewrite Eq, zlist_eqb_refl in E. simpl in E. inv E. split; [repeat constructor|].
        split; [simpl; lia|]. intros g. simpl. rewrite Eq. intuition.
      - destruct (zlist_eqb (G c) (G c')) eqn:Ez; [apply zlist_eqb_eq in Ez; congruence|].
        simpl in E. rewrite Ea, Eb in E, Ne |- *. simpl in Ne.
        destruct (Z.ltb_spec b a); inv E; (split; [|split; [simpl; lia|simpl; intuition]]);
          repeat constructor; simpl; lia. }
    assert (HS : forall c, sc w = c -> In w (p_ranks Ps) -> in_group c w) by (intros; left; auto).
    assert (HR : forall c, dc w = c -> In w (p_ranks Pd) -> in_group c w) by (intros; right; auto).
    destruct (in_dec Z.eq_dec w (p_ranks Ps)) as [I1|I1]; destruct (in_dec Z.eq_dec w (p_ranks Pd)) as [I2|I2].
    - destruct (send_of_active Ps Pd ts td Ps_ok compatible U U_nodup U_in w I1) as [E1 _].
      destruct (recv_of_active Ps Pd ts td Ps_ok Pd_ok compatible U U_nodup U_in w I2) as [E2 _].
      rewrite E1, E2 in Hcalls.
      assert (Iff : forall g, g = G (sc w) \/ g = G (dc w) <-> exists c, in_group c w /\ g = G c).
      { intros g. split.
        - intros [->| ->]; eauto.
        - intros (c & [[_ <-]|[_ <-]] & ->); auto. }
      destruct Hcalls as [Hc|Hc]; apply Two in Hc; auto; destruct Hc as (S1 & S2 & S3);
        (split; [auto|split; [auto|intros g; rewrite S3, <- Iff; tauto]]).
    - destruct (send_of_active Ps Pd ts td Ps_ok compatible U U_nodup U_in w I1) as [E1 _].
      rewrite E1, (recv_of_inactive Ps Pd ts td U w I2) in Hcalls.
      assert (calls = [G (sc w)]) by (destruct Hcalls as [Hc|Hc]; simpl in Hc; congruence). subst.
      split; [repeat constructor|]. split; [simpl; lia|]. intros g. split.
      + intros [<-|[]]. eauto.
      + intros (c & [[_ <-]|[C _]] & ->); [now left|contradiction].
    - destruct (recv_of_active Ps Pd ts td Ps_ok Pd_ok compatible U U_nodup U_in w I2) as [E2 _].
      rewrite E2, (send_of_inactive Ps Pd ts td U w I1) in Hcalls.
      assert (calls = [G (dc w)]) by (destruct Hcalls as [Hc|Hc]; simpl in Hc; congruence). subst.
      split; [repeat constructor|]. split; [simpl; lia|]. intros g. split.
      + intros [<-|[]]. eauto.
      + intros (c & [[C _]|[_ <-]] & ->); [contradiction|now left].
    - apply U_in in Hw. tauto.
  Qed.

  Lemma groups_wf_of gc :
    (forall w, In w U ->
      create_send_recv_calls (send_of Ps Pd ts td U w) (recv_of Ps Pd ts td U w) = Ok (gc w) \/
      create_send_recv_calls (recv_of Ps Pd ts td U w) (send_of Ps Pd ts td U w) = Ok (gc w)) ->
    groups_wf U gc.
  Proof.
    intros H w Hw. destruct (calls_spec w (gc w) Hw (H w Hw)) as (HS & HL & HI).
    split; [|split; [auto|split; [auto|]]].
    - clear - HS. induction HS as [|a l Hl IH Ha]; constructor; auto.
      intros C. rewrite Forall_forall in Ha. apply Ha in C. lia.
    - intros g Hg. apply HI in Hg as (c & Hc & ->).
      destruct (in_group_root _ _ Hc) as (r & Hr & H0).
      destruct (grp_spec Ps Pd ts td Ps_ok compatible U U_nodup U_in c r Hr H0) as (_ & Ei & (r0 & g' & E & _) & Hb).
      split.
      + rewrite E. simpl. apply Hb. rewrite E. now left.
      + intros m Hm. rewrite Ei in Hm. apply colour_group_in in Hm.
        assert (Hmu : In m U /\ in_group c m).
        { destruct Hm as [->|[Hmu Em]].
          - split; [apply U_in; left; apply Hr|left; apply Hr].
          - split; auto. destruct (in_dec Z.eq_dec m (p_ranks Pd)) as [I|I]; [right; auto|].
            rewrite dcol_neg in Em by auto. lia. }
        destruct Hmu as [Hmu Hmc]. split; auto.
        apply (calls_spec m (gc m) Hmu (H m Hmu)). eauto.
  Qed.
End Groups.

Definition calls_of (r : result cross) : list (list Z) :=
  match r with Ok x => x_calls x | Raise _ => [] end.

Lemma cross_calls_ok x : cross_calls true (Ok x) = cross_calls true (Ok (mkcross None None (x_calls x))).
Proof. reflexivity. Qed.

Lemma C10_proof : C10_statement.
Proof.
  intros Ps Pd ts td all H1 H2 HR HN Hall.
  set (U := group_union (p_ranks Ps) (p_ranks Pd)).
  assert (HU : forall u, In u U <-> In u (p_ranks Ps) \/ In u (p_ranks Pd)) by (intros; apply group_union_in).
  assert (HUN : NoDup U) by (apply group_union_nodup; [apply H1|apply H2]).
  assert (HUall : forall v, In v U -> In v all) by (intros v Hv; now apply Hall, HU).
  assert (Hact : forall v, In v U -> is_active (p_ranks Ps) v || is_active (p_ranks Pd) v = true).
  { intros v Hv. apply HU in Hv as [H|H]; apply is_active_spec in H; rewrite H; auto using orb_true_r. }
  assert (Hina : forall v, ~ In v U -> is_active (p_ranks Ps) v || is_active (p_ranks Pd) v = false).
  { intros v Hv. assert (~ In v (p_ranks Ps) /\ ~ In v (p_ranks Pd)) as [Ha Hb] by (split; intros C; apply Hv, HU; auto).
    apply is_active_false in Ha, Hb. now rewrite Ha, Hb. }
  split.
  - destruct (bc_compatible_dec (flip ts (p_shape Ps)) (flip td (p_shape Pd))) as [HC|HC].
    + apply no_deadlock_of_groups with
        (gc := fun v => calls_of (create_broadcast_partition_to Ps Pd ts td v)); auto.
      * apply (groups_wf_of Ps Pd ts td H1 H2 HC U HUN HU). intros w Hw.
        destruct (broadcast_run Ps Pd ts td H1 H2 HR HC w Hw) as (calls & Ec & ->). left. exact Ec.
      * intros w Hw. unfold broadcast_calls. now rewrite Hina.
      * intros w Hw. unfold broadcast_calls. rewrite Hact by auto.
        destruct (broadcast_run Ps Pd ts td H1 H2 HR HC w Hw) as (calls & Ec & ->). apply cross_calls_ok.
    + apply no_deadlock_raise; auto.
      * intros w Hw. unfold broadcast_calls. now rewrite Hina.
      * intros w Hw. unfold broadcast_calls. rewrite Hact by auto.
        rewrite broadcast_rejects by (auto; now apply HU). eauto.
  - assert (HU' : forall u, In u U <-> In u (p_ranks Pd) \/ In u (p_ranks Ps)) by (intros; rewrite HU; tauto).
    destruct (bc_compatible_dec (flip td (p_shape Pd)) (flip ts (p_shape Ps))) as [HC|HC].
    + apply no_deadlock_of_groups with
        (gc := fun v => calls_of (create_reduction_partition_to Ps Pd ts td v)); auto.
      * apply (groups_wf_of Pd Ps td ts H2 H1 HC U HUN HU'). intros w Hw.
        destruct (reduction_run Pd Ps td ts H2 H1 (eq_sym HR) HC w Hw) as (calls & Ec & ->). right. exact Ec.
      * intros w Hw. unfold reduction_calls. now rewrite Hina.
      * intros w Hw. unfold reduction_calls. rewrite Hact by auto.
        destruct (reduction_run Pd Ps td ts H2 H1 (eq_sym HR) HC w Hw) as (calls & Ec & ->). apply cross_calls_ok.
    + apply no_deadlock_raise; auto.
      * intros w Hw. unfold reduction_calls. now rewrite Hina.
      * intros w Hw. unfold reduction_calls. rewrite Hact by auto.
        rewrite reduction_rejects by (auto; now apply HU). eauto.
Qed.

Theorem C10_group_creation_no_deadlock : C10_statement.
Proof. exact C10_proof. Qed.

(** Workers 0..3 broadcast to themselves in rotated order: every worker is in two
    groups, as root of one and destination in the other. *)
Definition ex10_src : part := mkpart 0 [0; 1; 2; 3] [4].
Definition ex10_dst : part := mkpart 0 [3; 0; 1; 2] [4].

Example C10_example :
  part_ok ex10_src /\ part_ok ex10_dst /\
  map (fun v => calls_of (create_broadcast_partition_to ex10_src ex10_dst false false v)) [0; 1; 2; 3]
    = [[[0; 3]; [1; 0]]; [[1; 0]; [2; 1]]; [[2; 1]; [3; 2]]; [[0; 3]; [3; 2]]].
Proof.
  split; [|split; [|reflexivity]]; repeat split; try discriminate; repeat constructor; simpl; lia.
Qed.

Print Assumptions C10_group_creation_no_deadlock.
