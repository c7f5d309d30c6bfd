(** Proofs about histories of Repartition calls. *)

From Coq Require Import RelationClasses.
From Verif Require Import Prelude ModelSlicing ModelDecomposition ModelPartition
  SpecIndex SpecLayout SpecPartition ProofSlicing ProofDecomposition ProofPartition
  Ring Tensor ModelCollectives ModelBuffer P2P Rounds ModelRepartition ProofRepartition ProofTransfer.

Section Calls.
  Context {R : CRing}.
  Notation tensor := (tensor R).
  Notation rst := (@rst R).
  Notation rmsg := (@rmsg R).
  Notation action := (@action rst rmsg).

  Variables Px Py : part.
  Variable Lx : layout.
  Variable shape : Z -> list Z.
  Variable pb : bool.
  Variable world : list Z.

  Hypothesis Hworld : NoDup world.
  Hypothesis HUw : forall v, In v (union Px Py) -> In v world.
  Hypothesis HPx : part_ok Px.
  Hypothesis HPy : part_ok Py.
  Hypothesis Hroot : p_root Px = p_root Py.
  Hypothesis Hdim : length (p_shape Px) = length (p_shape Py).
  Hypothesis HLx : layout_ok Lx.
  Hypothesis HWx : layout_workers Lx = p_shape Px.
  Hypothesis Hshape : forall v idx, worker_at Px idx v -> shape v = block_shape Lx idx.
  Hypothesis Hsplit : splittable (layout_shape Lx) (p_shape Py).

  Let U := union Px Py.
  Let Ly := balanced (layout_shape Lx) (p_shape Py).
  Let outy (v : Z) : list Z := match index_in Py v with Some j => block_shape Ly j | None => [] end.
  Let setup := setup_of Px Py shape.

  Lemma setup_in v : In v U -> setup v = Some (rsetup0 Px Py Lx shape v).
  Proof. intros Hv. unfold setup, setup_of. now rewrite (prepare_spec Px Py Lx shape). Qed.
  Lemma setup_out v : ~ In v U -> setup v = None.
  Proof. intros Hv. unfold setup, setup_of. now rewrite prepare_outside. Qed.

  Lemma forward_eq v : forward_round Px Py pb setup v =
    xfer_round (R := R) Px Py pb Px Py Lx Ly 111 outy v.
  Proof.
    unfold forward_round, xfer_round. change (union Px Py) with U.
    destruct (is_active U v) eqn:E.
    - apply is_active_spec in E. now rewrite setup_in.
    - apply is_active_false in E. now rewrite setup_out.
  Qed.

  Lemma backward_eq v : backward_round Px Py pb setup v =
    xfer_round (R := R) Px Py pb Py Px Ly Lx 113 shape v.
  Proof.
    unfold backward_round, xfer_round. change (union Px Py) with U.
    destruct (is_active U v) eqn:E.
    - apply is_active_spec in E. now rewrite setup_in.
    - apply is_active_false in E. now rewrite setup_out.
  Qed.

  Lemma Ly_ok' : layout_ok Ly.
  Proof. apply (Ly_ok Py Lx); auto. Qed.
  Lemma Ly_workers' : layout_workers Ly = p_shape Py.
  Proof. apply (Ly_workers Px Py Lx); auto. Qed.
  Lemma Ly_shape' : layout_shape Ly = layout_shape Lx.
  Proof. apply (Ly_shape Px Py Lx); auto. Qed.
  Lemma HxU v : In v (p_ranks Px) -> In v U.
  Proof. intros. apply group_union_in. auto. Qed.
  Lemma HyU v : In v (p_ranks Py) -> In v U.
  Proof. intros. apply group_union_in. auto. Qed.
  Lemma outy_spec v j : index_in Py v = Some j -> outy v = block_shape Ly j.
  Proof. unfold outy. now intros ->. Qed.
  Lemma outx_spec v j : index_in Px v = Some j -> shape v = block_shape Lx j.
  Proof. intros H. apply Hshape. now apply index_in_spec. Qed.

  Lemma round_ok_ext (rd rd' : @round rst rmsg) : (forall v, rd v = rd' v) ->
    round_ok world eqS eqM rd -> round_ok world eqS eqM rd'.
  Proof.
    intros E []. constructor.
    - intros w d t. rewrite <- (E w). apply ro_send.
    - intros w d t. rewrite <- (E w). apply ro_recv.
    - intros s d t. rewrite <- (E s), <- (E d). apply ro_match.
    - intros w a. rewrite <- (E w). apply ro_proper.
    - intros w. rewrite <- (E w). apply ro_commute.
  Qed.

  Lemma forward_ok : round_ok world eqS eqM (forward_round (R := R) Px Py pb setup).
  Proof.
    apply (round_ok_ext (xfer_round (R := R) Px Py pb Px Py Lx Ly 111 outy)).
    - intros v. symmetry. apply forward_eq.
    - apply xfer_round_ok; auto using HxU, HyU, Ly_ok', Ly_workers', eq_sym, Ly_shape', outy_spec.
  Qed.

  Lemma backward_ok : round_ok world eqS eqM (backward_round (R := R) Px Py pb setup).
  Proof.
    apply (round_ok_ext (xfer_round (R := R) Px Py pb Py Px Ly Lx 113 shape)).
    - intros v. symmetry. apply backward_eq.
    - apply xfer_round_ok; auto using HxU, HyU, Ly_ok', Ly_workers', Ly_shape', outx_spec.
  Qed.

  (** ** The broadcast of the requires-grad status *)

  Let others (v : Z) := filter (fun u => negb (u =? v)) U.

  Lemma U_nd : NoDup U.
  Proof. destruct HPx as (? & _), HPy as (? & _). now apply group_union_nodup. Qed.

  Lemma in_others v u : In u (others v) <-> In u U /\ u <> v.
  Proof.
    unfold others. rewrite filter_In. destruct (Z.eqb_spec u v); simpl; intuition congruence.
  Qed.

  Definition bl (v : Z) : list action :=
    [ALocal (fun s => set_flag (match rank_in (p_ranks Px) v with Some 0 => r_rg s | _ => false end) s)].
  Definition br (v : Z) : list action :=
    map (fun u => ARecv u btag (fun m s =>
             match m with
             | inl b => if u =? nth 0 U 0 then set_flag b s else s
             | inr _ => s
             end)) (others v).
  Definition bs (v : Z) : list action :=
    map (fun u => ASend u btag (fun s => inl (r_flag s))) (others v).

  Lemma bcast_eq v : In v U -> bcast_round Px Py v = bl v ++ br v ++ bs v.
  Proof. intros H. unfold bcast_round. change (union Px Py) with U. apply is_active_spec in H. now rewrite H. Qed.
  Lemma bcast_out v : ~ In v U -> bcast_round (R := R) Px Py v = [].
  Proof. intros H. unfold bcast_round. change (union Px Py) with U. apply is_active_false in H. now rewrite H. Qed.

  Definition btalk (s d : Z) : bool := is_active U s && is_active U d && negb (s =? d).

  Lemma bcast_sends s d t :
    sends_in d t (bcast_round (R := R) Px Py s) = if (t =? btag) && btalk s d then 1%nat else 0%nat.
  Proof.
    unfold btalk. destruct (is_active U s) eqn:Es.
    2:{ apply is_active_false in Es. rewrite bcast_out by auto. cbn. now rewrite andb_false_r. }
    apply is_active_spec in Es. rewrite bcast_eq by auto. rewrite !sends_app.
    replace (sends_in d t (bl s)) with 0%nat by reflexivity.
    replace (sends_in d t (br s)) with 0%nat
      by (symmetry; apply count_map_none; reflexivity).
    cbn [andb plus]. unfold bs, sends_in.
    destruct (in_dec Z.eq_dec d (others s)) as [Hd|Hd].
    - rewrite (count_map_unique _ _ _ d); auto.
      + apply in_others in Hd as [Hd Hne]. apply is_active_spec in Hd. rewrite Hd.
        unfold is_send. rewrite Z.eqb_refl, (Z.eqb_sym btag t).
        destruct (Z.eqb_spec s d); [congruence|]. now destruct (t =? btag).
      + apply NoDup_filter, U_nd.
      + intros u Hu Hp. unfold is_send in Hp. breflect. auto.
    - rewrite count_map_none.
      + destruct (is_active U d) eqn:Ed; [|now rewrite andb_false_r].
        apply is_active_spec in Ed. destruct (Z.eqb_spec s d); [now rewrite andb_false_r|].
        exfalso. apply Hd, in_others. split; auto.
      + intros u Hu. unfold is_send. destruct (Z.eqb_spec u d); auto. subst. contradiction.
  Qed.

  Lemma bcast_recvs s d t :
    recvs_in s t (bcast_round (R := R) Px Py d) = if (t =? btag) && btalk s d then 1%nat else 0%nat.
  Proof.
    unfold btalk. destruct (is_active U d) eqn:Es.
    2:{ apply is_active_false in Es. rewrite bcast_out by auto. cbn. now rewrite !andb_false_r. }
    apply is_active_spec in Es. rewrite bcast_eq by auto. rewrite !recvs_app.
    replace (recvs_in s t (bl d)) with 0%nat by reflexivity.
    replace (recvs_in s t (bs d)) with 0%nat
      by (symmetry; apply count_map_none; reflexivity).
    rewrite andb_true_r. cbn [plus]. rewrite Nat.add_0_r. unfold br, recvs_in.
    destruct (in_dec Z.eq_dec s (others d)) as [Hd|Hd].
    - rewrite (count_map_unique _ _ _ s); auto.
      + apply in_others in Hd as [Hd Hne]. apply is_active_spec in Hd. rewrite Hd.
        unfold is_recv. rewrite Z.eqb_refl, (Z.eqb_sym btag t).
        destruct (Z.eqb_spec s d); [congruence|]. now destruct (t =? btag).
      + apply NoDup_filter, U_nd.
      + intros u Hu Hp. unfold is_recv in Hp. breflect. auto.
    - rewrite count_map_none.
      + destruct (is_active U s) eqn:Ed; [|now rewrite andb_false_r].
        apply is_active_spec in Ed. destruct (Z.eqb_spec s d); [now rewrite andb_false_r|].
        exfalso. apply Hd, in_others. split; auto.
      + intros u Hu. unfold is_recv. destruct (Z.eqb_spec u s); auto. subst. contradiction.
  Qed.

  Lemma btalk_inside s d : btalk s d = true -> In s U /\ In d U.
  Proof. unfold btalk. intros H. breflect. split; now apply is_active_spec. Qed.

  Lemma bcast_ok : round_ok world eqS eqM (bcast_round (R := R) Px Py).
  Proof.
    constructor.
    - intros w d t _ H. rewrite bcast_sends in H. apply HUw.
      destruct (btalk w d) eqn:E; [apply btalk_inside in E; tauto|rewrite andb_false_r in H; lia].
    - intros w s t _ H. rewrite bcast_recvs in H. apply HUw.
      destruct (btalk s w) eqn:E; [apply btalk_inside in E; tauto|rewrite andb_false_r in H; lia].
    - intros s d t _ _. rewrite bcast_sends, bcast_recvs. destruct (_ && _); lia.
    - intros w a _ Ha. destruct (is_active U w) eqn:Ew.
      2:{ apply is_active_false in Ew. now rewrite bcast_out in Ha. }
      apply is_active_spec in Ew. rewrite bcast_eq, !in_app_iff in Ha by auto.
      destruct Ha as [Ha|[Ha|Ha]].
      + destruct Ha as [<-|[]]. simpl. intros s s' Hs. pose proof Hs as [].
        rewrite es_rg. now apply set_flag_proper.
      + apply in_map_iff in Ha as (u & <- & _). simpl. intros m m' s s' Hm Hs.
        destruct m, m'; simpl in Hm; try easy. subst. destruct (u =? nth 0 U 0); auto.
        now apply set_flag_proper.
      + apply in_map_iff in Ha as (u & <- & _). simpl. intros s s' Hs. apply Hs.
    - intros w _. destruct (is_active U w) eqn:Ew.
      2:{ apply is_active_false in Ew. rewrite bcast_out by auto. constructor. }
      apply is_active_spec in Ew. rewrite bcast_eq by auto.
      apply FOP_app; [repeat constructor| |].
      2:{ intros a b [<-|[]] _. exact I. }
      apply FOP_app.
      + apply FOP_map_nodup; [apply NoDup_filter, U_nd|]. intros u u' _ _ Hne. simpl.
        intros m m' s. destruct m, m'; try reflexivity.
        destruct (Z.eqb_spec u (nth 0 U 0)), (Z.eqb_spec u' (nth 0 U 0)); try reflexivity. congruence.
      + apply FOP_free. intros a Ha. now apply in_map_iff in Ha as (u & <- & _).
      + intros a b _ Hb. apply act_commute_r. now apply in_map_iff in Hb as (u & <- & _).
  Qed.

  (** The first worker of P_x. *)
  Definition x_first : Z := nth 0 (p_ranks Px) 0.

  Lemma root_first : nth 0 U 0 = x_first /\ rank_in (p_ranks Px) x_first = Some 0 /\ In x_first U.
  Proof.
    unfold x_first. pose proof (part_ok_nonempty _ HPx) as H.
    assert (Hin : In (nth 0 (p_ranks Px) 0) (p_ranks Px)) by (apply nth_In; destruct (p_ranks Px); simpl; [congruence|lia]).
    split; [|split].
    - unfold U, union, group_union. destruct (p_ranks Px); [congruence|]. reflexivity.
    - destruct HPx as (HN & _). apply rank_in_spec; auto. split; [lia|].
      destruct (p_ranks Px); [congruence|reflexivity].
    - now apply HxU.
  Qed.

  Lemma bcast_value (S0 : Z -> rst) v : sync1 (bcast_round Px Py) S0 v =
    if is_active U v then set_flag (r_rg (S0 x_first)) (S0 v) else S0 v.
  Proof.
    unfold sync1. destruct (is_active U v) eqn:E.
    2:{ apply is_active_false in E. now rewrite bcast_out. }
    apply is_active_spec in E. rewrite bcast_eq by auto.
    destruct root_first as (Hr & Hr0 & HrU).
    rewrite !acts_run_app, !unpack_all_app.
    rewrite (no_local_run (br v)) by (intros a Ha; now apply in_map_iff in Ha as (u & <- & _)).
    rewrite (no_local_run (bs v)) by (intros a Ha; now apply in_map_iff in Ha as (u & <- & _)).
    rewrite (unpack_all_none _ (bs v)) by (intros a Ha; now apply in_map_iff in Ha as (u & <- & _)).
    cbn [bl acts_run unpack_all].
    set (s1 := set_flag _ (S0 v)).
    assert (Hpay : forall u, In u (others v) ->
      pay v btag (bcast_round Px Py u) (S0 u) =
      [inl (match rank_in (p_ranks Px) u with Some 0 => r_rg (S0 u) | _ => false end)]).
    { intros u Hu. apply in_others in Hu as [Hu Hne]. rewrite bcast_eq by auto.
      rewrite !pay_app. rewrite (no_local_run (br u)) by (intros a Ha; now apply in_map_iff in Ha as (w & <- & _)).
      rewrite (pay_none _ _ (br u)) by (apply count_map_none; reflexivity).
      cbn [bl pay acts_run app].
      assert (Hv : In v (others u)) by (apply in_others; split; auto).
      apply In_nth_error in Hv as (k & Hk).
      rewrite (pay_unique v btag (bs u) _ k (fun s => inl (r_flag s))).
      - reflexivity.
      - intros a Ha. now apply in_map_iff in Ha as (w & <- & _).
      - unfold bs. erewrite map_nth_error; eauto.
      - intros j a Hj Hp. unfold bs in Hj. rewrite nth_error_map in Hj.
        destruct (nth_error (others u) j) as [w|] eqn:Ew; [|discriminate]. inv Hj.
        unfold is_send in Hp. breflect. subst w.
        eapply NoDup_nth_error_inj; [apply NoDup_filter, U_nd| |]; eauto. }
    assert (G : forall l (s : rst), (forall u, In u l -> In u (others v)) ->
      unpack_all (fun src t => pay v t (bcast_round Px Py src) (S0 src))
        (map (fun u => ARecv u btag (fun (m : rmsg) s =>
             match m with
             | inl b => if u =? nth 0 U 0 then set_flag b s else s
             | inr _ => s
             end)) l) s =
      if existsb (Z.eqb x_first) l then set_flag (r_rg (S0 x_first)) s else s).
    { rewrite Hr. induction l as [|u l IH]; intros s Hl; auto. cbn [map unpack_all].
      rewrite Hpay by (apply Hl; now left). rewrite IH by (intros; apply Hl; now right).
      cbn [existsb]. rewrite (Z.eqb_sym x_first u). destruct (Z.eqb_spec u x_first) as [->|Hn]; cbn [orb].
      - rewrite Hr0. now destruct (existsb _ l).
      - reflexivity. }
    unfold br. rewrite G by auto.
    destruct (existsb (Z.eqb x_first) (others v)) eqn:Ex; [reflexivity|].
    destruct (Z.eq_dec v x_first) as [->|Hne].
    - unfold s1. now rewrite Hr0.
    - exfalso. assert (existsb (Z.eqb x_first) (others v) = true); [|congruence].
      apply existsb_exists. exists x_first. split; [|apply Z.eqb_refl]. apply in_others. auto.
  Qed.

  (** ** Histories *)

  Lemma load_ok x rg : round_ok world eqS eqM (load_round (R := R) x rg).
  Proof.
    apply (round_ok_ext (fun v => map ALocal [fun s => mkrst (x v) (rg v) (r_flag s) (r_out s) (r_outrg s) (r_hist s)])).
    - reflexivity.
    - apply round_ok_local. intros w g s s' [<-|[]] []. constructor; simpl; auto; reflexivity.
  Qed.

  Lemma store_ok : round_ok world eqS eqM (store_round (R := R)).
  Proof.
    apply (round_ok_ext (fun v => map ALocal
      [fun s => mkrst (r_in s) (r_rg s) (r_flag s) (r_out s) (r_outrg s) (r_hist s ++ [(r_out s, r_outrg s)])])).
    - reflexivity.
    - apply round_ok_local. intros w g s s' [<-|[]] []. constructor; simpl; auto.
      apply Forall2_app; auto.
  Qed.

  Lemma history_ok cs : Forall (round_ok world eqS eqM) (history_rounds (R := R) Px Py pb setup cs).
  Proof.
    induction cs as [|c cs IH]; [constructor|]. unfold history_rounds. simpl. apply Forall_app. split; auto.
    destruct c; cbn [call_rounds]; repeat apply Forall_cons; try apply Forall_nil;
      auto using load_ok, bcast_ok, forward_ok, backward_ok, store_ok.
  Qed.

  Theorem history_async cs init :
    async_ok world eqS (history_rounds (R := R) Px Py pb setup cs) init.
  Proof.
    apply (rounds_async world eqS eqM); auto using history_ok.
    - apply eqS_equiv.
    - apply eqM_equiv.
  Qed.

  (** ** Results in lock-step *)

  Lemma sync_history_app (cs cs' : list call) init :
    sync_rounds (history_rounds Px Py pb setup (cs ++ cs')) init =
    sync_rounds (history_rounds Px Py pb setup cs') (sync_rounds (history_rounds (R := R) Px Py pb setup cs) init).
  Proof. unfold sync_rounds, history_rounds. now rewrite flat_map_app, fold_left_app. Qed.

  Lemma sync1_ext_rd (rd rd' : @round rst rmsg) S0 v : (forall v, rd v = rd' v) -> sync1 rd S0 v = sync1 rd' S0 v.
  Proof.
    intros E. unfold sync1. rewrite (E v). generalize (acts_run (rd' v) (S0 v)).
    induction (rd' v) as [|[] l IH]; intros s; simpl; auto. now rewrite E, IH.
  Qed.

  Lemma load_value (x : Z -> tensor) rg (S0 : Z -> rst) v : sync1 (load_round (R := R) x rg) S0 v =
    mkrst (x v) (rg v) (r_flag (S0 v)) (r_out (S0 v)) (r_outrg (S0 v)) (r_hist (S0 v)).
  Proof. reflexivity. Qed.

  Lemma store_value (S0 : Z -> rst) v : sync1 (store_round (R := R)) S0 v =
    mkrst (r_in (S0 v)) (r_rg (S0 v)) (r_flag (S0 v)) (r_out (S0 v)) (r_outrg (S0 v))
          (r_hist (S0 v) ++ [(r_out (S0 v), r_outrg (S0 v))]).
  Proof. reflexivity. Qed.

  (** State after loading and broadcasting. *)
  Lemma forward_start (x : Z -> tensor) rg (S0 : Z -> rst) v :
    let S1 := sync1 (bcast_round Px Py) (sync1 (load_round (R := R) x rg) S0) in
    r_in (S1 v) = x v /\ r_rg (S1 v) = rg v /\ r_hist (S1 v) = r_hist (S0 v) /\
    (In v U -> r_flag (S1 v) = rg x_first).
  Proof.
    cbv zeta. rewrite bcast_value. destruct (is_active U v) eqn:E; simpl; repeat split; auto.
    intros Hv. apply is_active_spec in Hv. congruence.
  Qed.

  (** What one call yields, for any state before it. *)
  Lemma forward_result (x : Z -> tensor) rg (S0 : Z -> rst) v :
    let s' := sync_rounds (history_rounds Px Py pb setup [CForward x rg]) S0 v in
    r_hist s' = r_hist (S0 v) ++ [(r_out s', r_outrg s')] /\
    (In v U -> r_flag s' = rg x_first) /\
    (forall j, index_in Py v = Some j ->
       r_outrg s' = rg x_first /\ tshape (r_out s') = block_shape Ly j /\
       forall p i, valid_index (block_shape Ly j) p -> valid_index (p_shape Px) i ->
         in_box (block_lo Lx i) (block_hi Lx i) (vadd (block_lo Ly j) p) ->
         tat (r_out s') p = tat (x (wk Px i)) (vsub (vadd (block_lo Ly j) p) (block_lo Lx i))) /\
    (In v U -> index_in Py v = None ->
       r_outrg s' = false /\ Ok (r_out s') =
         match zero_volume pb (tshape (x v)) with Ok t => Ok t | Raise _ => Ok (mkt [0] (fun _ => rzero)) end) /\
    (~ In v U -> r_out s' = x v /\ r_outrg s' = rg v).
  Proof.
    cbv zeta. unfold sync_rounds, history_rounds. cbn [flat_map call_rounds app fold_left].
    pose proof (forward_start x rg S0) as HS1. cbv zeta in HS1.
    set (S1 := sync1 (bcast_round Px Py) (sync1 (load_round (R := R) x rg) S0)) in *.
    rewrite store_value. set (S2 := sync1 (forward_round Px Py pb setup) S1).
    assert (E2 : S2 v = sync1 (xfer_round (R := R) Px Py pb Px Py Lx Ly 111 outy) S1 v)
      by (apply sync1_ext_rd; apply forward_eq).
    destruct (HS1 v) as (I1 & I2 & I3 & I4).
    cbn [r_hist r_out r_outrg r_flag].
    destruct (in_dec Z.eq_dec v U) as [Hv|Hv].
    - destruct (index_in Py v) as [j|] eqn:Ej.
      + pose proof (xfer_value (R := R) Px Py pb Px Py Lx Ly 111 outy HPx HPy HxU HyU HLx HWx Ly_workers'
          (eq_sym Ly_shape') outy_spec S1 v j Ej) as HV.
        cbv zeta in HV. rewrite <- E2 in HV. destruct HV as ((K1 & K2 & K3 & K4) & K5 & K6 & K7).
        split; [congruence|]. split; [intros _; rewrite K3; auto|].
        split; [|split; [congruence|tauto]].
        intros j' Ej'. inv Ej'. split; [rewrite K5; auto|]. split; auto.
        intros p i Hp Hi Hb. rewrite (K7 p i Hp Hi Hb). f_equal.
        destruct (HS1 (wk Px i)) as (J1 & _). exact J1.
      + pose proof (xfer_default (R := R) Px Py pb Px Py Lx Ly 111 outy HPx HPy HxU HyU S1 v Hv Ej) as HV.
        rewrite <- E2 in HV. rewrite HV. cbn [r_out r_outrg r_flag r_hist set_out].
        split; [rewrite I3; auto|]. split; [auto|]. split; [discriminate|].
        split; [|tauto]. intros _ _. split; auto.
        unfold default_out. rewrite I1. now destruct (zero_volume _ _).
    - pose proof (xfer_outside (R := R) Px Py pb Px Py Lx Ly 111 outy S1 v Hv) as HV.
      rewrite <- E2 in HV. rewrite HV. cbn [r_out r_outrg r_flag r_hist set_out].
      split; [congruence|]. split; [tauto|]. split.
      + intros j Ej. exfalso. apply Hv. apply index_in_valid in Ej as [Hj <-]; auto. apply HyU. now apply wk_In.
      + split; [tauto|]. intros _. split; congruence.
  Qed.

  Lemma backward_result (dy : Z -> tensor) (S0 : Z -> rst) v :
    let s' := sync_rounds (history_rounds Px Py pb setup [CBackward dy]) S0 v in
    r_hist s' = r_hist (S0 v) ++ [(r_out s', r_outrg s')] /\
    (In v U -> r_flag s' = r_flag (S0 v)) /\
    (forall j, index_in Px v = Some j ->
       r_outrg s' = r_flag (S0 v) /\ tshape (r_out s') = block_shape Lx j /\
       forall p i, valid_index (block_shape Lx j) p -> valid_index (p_shape Py) i ->
         in_box (block_lo Ly i) (block_hi Ly i) (vadd (block_lo Lx j) p) ->
         tat (r_out s') p = tat (dy (wk Py i)) (vsub (vadd (block_lo Lx j) p) (block_lo Ly i))) /\
    (In v U -> index_in Px v = None ->
       r_outrg s' = false /\ Ok (r_out s') =
         match zero_volume pb (tshape (dy v)) with Ok t => Ok t | Raise _ => Ok (mkt [0] (fun _ => rzero)) end) /\
    (~ In v U -> r_out s' = dy v).
  Proof.
    cbv zeta. unfold sync_rounds, history_rounds. cbn [flat_map call_rounds app fold_left].
    set (S1 := sync1 (load_round (R := R) dy (fun _ => false)) S0) in *.
    rewrite store_value. set (S2 := sync1 (backward_round Px Py pb setup) S1).
    assert (E2 : S2 v = sync1 (xfer_round (R := R) Px Py pb Py Px Ly Lx 113 shape) S1 v)
      by (apply sync1_ext_rd; apply backward_eq).
    cbn [r_hist r_out r_outrg r_flag].
    destruct (in_dec Z.eq_dec v U) as [Hv|Hv].
    - destruct (index_in Px v) as [j|] eqn:Ej.
      + pose proof (xfer_value (R := R) Px Py pb Py Px Ly Lx 113 shape HPy HPx HyU HxU Ly_ok' Ly_workers' HWx
          Ly_shape' outx_spec S1 v j Ej) as HV.
        cbv zeta in HV. rewrite <- E2 in HV. destruct HV as ((K1 & K2 & K3 & K4) & K5 & K6 & K7).
        split; [rewrite K4; reflexivity|]. split; [intros _; rewrite K3; reflexivity|].
        split; [|split; [congruence|tauto]].
        intros j' Ej'. inv Ej'. split; [rewrite K5; reflexivity|]. split; auto.
      + pose proof (xfer_default (R := R) Px Py pb Py Px Ly Lx 113 shape HPy HPx HyU HxU S1 v Hv Ej) as HV.
        rewrite <- E2 in HV. rewrite HV. cbn [r_out r_outrg r_flag r_hist set_out].
        split; [reflexivity|]. split; [reflexivity|]. split; [discriminate|].
        split; [|tauto]. intros _ _. split; auto.
        unfold default_out. change (tshape (r_in (S1 v))) with (tshape (dy v)). now destruct (zero_volume _ _).
    - pose proof (xfer_outside (R := R) Px Py pb Py Px Ly Lx 113 shape S1 v Hv) as HV.
      rewrite <- E2 in HV. rewrite HV. cbn [r_out r_outrg r_flag r_hist set_out].
      split; [reflexivity|]. split; [tauto|]. split.
      + intros j Ej. exfalso. apply Hv. apply index_in_valid in Ej as [Hj <-]; auto. apply HxU. now apply wk_In.
      + split; [tauto|]. reflexivity.
  Qed.
End Calls.
