(** Programs in which all workers go through the same list of rounds. *)

From Coq Require Import RelationClasses.
From Verif Require Import Prelude P2P.

Section Rounds.
  Context {S M : Type}.
  Notation action := (@action S M).
  Variable workers : list Z.
  Variable eqS : S -> S -> Prop.
  Variable eqM : M -> M -> Prop.

  Definition round : Type := Z -> list action.

  Definition rounds_prog (rounds : list round) (w : Z) : list (list action) :=
    map (fun rd => rd w) rounds.

  (** One round in lock-step. *)
  Definition sync1 (rd : round) (S0 : Z -> S) : Z -> S :=
    fun w => unpack_all (fun src t => pay w t (rd src) (S0 src)) (rd w) (acts_run (rd w) (S0 w)).

  Definition sync_rounds (rounds : list round) (S0 : Z -> S) : Z -> S :=
    fold_left (fun s rd => sync1 rd s) rounds S0.

  Record round_ok (rd : round) : Prop := {
    ro_send : forall w d t, In w workers -> (0 < sends_in d t (rd w))%nat -> In d workers;
    ro_recv : forall w s t, In w workers -> (0 < recvs_in s t (rd w))%nat -> In s workers;
    ro_match : forall s d t, In s workers -> In d workers ->
      sends_in d t (rd s) = recvs_in s t (rd d) /\ (sends_in d t (rd s) <= 1)%nat;
    ro_proper : forall w a, In w workers -> In a (rd w) -> act_proper eqS eqM a;
    ro_commute : forall w, In w workers -> ForallOrdPairs (act_commute eqS) (rd w)
  }.

  (** A round without communication. *)
  Lemma round_ok_local (f : Z -> list (S -> S)) :
    (forall w g s s', In g (f w) -> eqS s s' -> eqS (g s) (g s')) ->
    round_ok (fun w => map ALocal (f w)).
  Proof.
    intros H.
    assert (E : forall w d t, sends_in d t (map (@ALocal S M) (f w)) = 0%nat).
    { intros w d t. unfold sends_in. induction (f w); simpl; auto. }
    assert (E' : forall w d t, recvs_in d t (map (@ALocal S M) (f w)) = 0%nat).
    { intros w d t. unfold recvs_in. induction (f w); simpl; auto. }
    constructor.
    - intros w d t _ Hp. rewrite E in Hp. lia.
    - intros w d t _ Hp. rewrite E' in Hp. lia.
    - intros. rewrite E, E'. lia.
    - intros w a _ Ha. apply in_map_iff in Ha as (g & <- & Hg). simpl. intros. eapply H; eauto.
    - intros w _. induction (f w); simpl; constructor; auto.
      apply Forall_forall. intros x Hx. exact I.
  Qed.

  Lemma sync1_ext rd S0 S0' w : (forall u, S0 u = S0' u) -> sync1 rd S0 w = sync1 rd S0' w.
  Proof.
    intros H. unfold sync1. rewrite (H w). generalize (acts_run (rd w) (S0' w)).
    induction (rd w) as [|[] l IH]; intros s; simpl; auto. now rewrite (H src), IH.
  Qed.

  Lemma rounds_code rounds w r : code (rounds_prog rounds) w r = nth r rounds (fun _ => []) w.
  Proof.
    unfold code, rounds_prog. revert r. induction rounds as [|rd rounds IH]; intros [|r]; simpl; auto.
  Qed.

  Lemma sync_rounds_spec rounds init r w : (r <= length rounds)%nat ->
    sync (rounds_prog rounds) init r w = sync_rounds (firstn r rounds) init w.
  Proof.
    revert w. induction r as [|r IH]; intros w Hr; auto.
    simpl sync. unfold sync_round.
    destruct (nth_error rounds r) as [rd|] eqn:E; [|apply nth_error_None in E; lia].
    change (Datatypes.S r) with (1 + r)%nat. rewrite (firstn_S_snoc _ _ _ E).
    unfold sync_rounds. rewrite fold_left_app. cbn [fold_left]. fold (sync_rounds (firstn r rounds) init).
    rewrite <- (sync1_ext rd (sync (rounds_prog rounds) init r)) by (intros; apply IH; lia).
    unfold sync1.
    assert (C : forall u, code (rounds_prog rounds) u r = rd u).
    { intros u. rewrite rounds_code. now rewrite (nth_error_nth _ _ _ E). }
    rewrite !C. generalize (acts_run (rd w) (sync (rounds_prog rounds) init r w)).
    induction (rd w) as [|[] l IHl]; intros s; simpl; auto. now rewrite C, IHl.
  Qed.

  Lemma rounds_good rounds : Forall round_ok rounds ->
    matched workers (rounds_prog rounds) /\
    proper workers (rounds_prog rounds) eqS eqM /\
    commuting workers (rounds_prog rounds) eqS.
  Proof.
    intros H.
    assert (N : forall r, round_ok (nth r rounds (fun _ => []))).
    { intros r. destruct (nth_in_or_default r rounds (fun _ => [])) as [Hin|Hd].
      - rewrite Forall_forall in H. auto.
      - rewrite Hd. apply (round_ok_local (fun _ => [])). intros ? ? ? ? []. }
    split; [|split].
    - split; [|split; [|split]].
      + intros. unfold rounds_prog. now rewrite !map_length.
      + intros w r d t Hw Hp. rewrite rounds_code in Hp. exact (ro_send _ (N r) w d t Hw Hp).
      + intros w r d t Hw Hp. rewrite rounds_code in Hp. exact (ro_recv _ (N r) w d t Hw Hp).
      + intros s d r t Hs Hd. rewrite !rounds_code. exact (ro_match _ (N r) s d t Hs Hd).
    - intros w r a Hw Ha. rewrite rounds_code in Ha. exact (ro_proper _ (N r) w a Hw Ha).
    - intros w r Hw. rewrite rounds_code. exact (ro_commute _ (N r) w Hw).
  Qed.

  (** Everything that can be said about the executions of such a program. *)
  Record async_ok (rounds : list round) (init : Z -> S) : Prop := {
    ao_bounded : forall eager, exists N, forall n g,
      run workers (rounds_prog rounds) init eager n g -> (n <= N)%nat;
    ao_progress : forall eager n g, run workers (rounds_prog rounds) init eager n g ->
      ~ done workers (rounds_prog rounds) g ->
      exists g', step workers (rounds_prog rounds) eager g g';
    ao_result : forall eager n g w, run workers (rounds_prog rounds) init eager n g ->
      done workers (rounds_prog rounds) g -> In w workers ->
      eqS (wdata (gw g w)) (sync_rounds rounds init w);
    ao_log : forall eager n g, run workers (rounds_prog rounds) init eager n g ->
      done workers (rounds_prog rounds) g ->
      NoDup (glog g) /\
      forall w r i, In (w, r, i) (glog g) <->
        In w workers /\ request_at (rounds_prog rounds) w r i
  }.

  Hypothesis eqS_equiv : Equivalence eqS.
  Hypothesis eqM_equiv : Equivalence eqM.

  Theorem rounds_async rounds init : NoDup workers -> Forall round_ok rounds -> async_ok rounds init.
  Proof.
    intros HN H. destruct (rounds_good _ H) as (G1 & G2 & G3). constructor.
    - intros eager. exists (bound workers (rounds_prog rounds)). intros n g Hr.
      eapply (p2p_bounded workers (rounds_prog rounds) init eager eqS eqM); eauto.
    - intros eager n g Hr Hd.
      eapply (p2p_progress workers (rounds_prog rounds) init eager eqS eqM); eauto.
    - intros eager n g w Hr Hd Hw.
      assert (E := sync_rounds_spec rounds init (length rounds) w (le_n _)).
      rewrite firstn_all in E. rewrite <- E.
      replace (length rounds) with (length (rounds_prog rounds w))
        by (unfold rounds_prog; now rewrite map_length).
      eapply (p2p_result workers (rounds_prog rounds) init eager eqS eqM); eauto.
    - intros eager n g Hr Hd.
      eapply (p2p_log workers (rounds_prog rounds) init eager eqS eqM); eauto.
  Qed.
End Rounds.

(** ** Counting and packing lemmas for rounds built from lists *)

Lemma filter_one {A} (p : A -> bool) l k :
  (forall j a, nth_error l j = Some a -> p a = true -> j = k) ->
  length (filter p l) = match nth_error l k with Some a => if p a then 1%nat else 0%nat | None => 0%nat end.
Proof.
  revert k. induction l as [|a l IH]; intros k H; [destruct k; reflexivity|].
  simpl. destruct (p a) eqn:E.
  - assert (k = 0%nat) by (symmetry; apply (H 0%nat a); auto). subst k. simpl. rewrite E. f_equal.
    rewrite (IH (length l)).
    + destruct (nth_error l (length l)) eqn:En; auto. exfalso.
      assert (length l < length l)%nat by (apply nth_error_Some; congruence). lia.
    + intros j b Hj Hb. specialize (H (S j) b Hj Hb). discriminate.
  - destruct k as [|k].
    + rewrite (IH (length l)); simpl.
      * rewrite E. destruct (nth_error l (length l)) eqn:En; auto. exfalso.
        assert (length l < length l)%nat by (apply nth_error_Some; congruence). lia.
      * intros j b Hj Hb. specialize (H (S j) b Hj Hb). discriminate.
    + simpl. apply IH. intros j b Hj Hb. specialize (H (S j) b Hj Hb). lia.
Qed.

Section Lists.
  Context {S M : Type}.
  Notation action := (@action S M).

  Definition no_local (l : list action) : Prop :=
    forall a, In a l -> match a with ALocal _ => False | _ => True end.

  Lemma no_local_run (l : list action) (s : S) : no_local l -> acts_run l s = s.
  Proof.
    induction l as [|a l IH]; intros H; auto. pose proof (H a (or_introl eq_refl)).
    destruct a; simpl; try easy; apply IH; intros b Hb; apply H; now right.
  Qed.

  Lemma pay_none d t (l : list action) (s : S) : sends_in d t l = 0%nat -> pay d t l s = [].
  Proof. intros H. apply length_zero_iff_nil. now rewrite pay_length. Qed.

  Lemma pay_unique d t (l : list action) (s : S) k f : no_local l -> nth_error l k = Some (ASend d t f) ->
    (forall j a, nth_error l j = Some a -> is_send d t a = true -> j = k) ->
    pay d t l s = [f s].
  Proof.
    intros HL Hk HU.
    rewrite <- (firstn_skipn k l), (nth_skipn_cons _ _ _ Hk), pay_app.
    assert (Hlen : (k < length l)%nat) by (apply nth_error_Some; congruence).
    rewrite no_local_run.
    2:{ intros a Ha. apply HL. rewrite <- (firstn_skipn k l). apply in_or_app. now left. }
    rewrite pay_none; simpl.
    - rewrite !Z.eqb_refl. simpl. f_equal. apply pay_none. unfold sends_in.
      apply length_zero_iff_nil.
      destruct (filter (is_send d t) (skipn (Datatypes.S k) l)) as [|a r] eqn:E; auto. exfalso.
      assert (Ha : In a (a :: r)) by now left. rewrite <- E in Ha. apply filter_In in Ha as [Ha Hp].
      apply In_nth_error in Ha as (j & Hj).
      assert (Hj' : nth_error l (Datatypes.S k + j) = Some a).
      { rewrite <- (firstn_skipn (Datatypes.S k) l), nth_error_app2; rewrite firstn_length_le by lia; [|lia].
        replace (Datatypes.S k + j - Datatypes.S k)%nat with j by lia. auto. }
      specialize (HU _ _ Hj' Hp). lia.
    - unfold sends_in. apply length_zero_iff_nil.
      destruct (filter (is_send d t) (firstn k l)) as [|a r] eqn:E; auto. exfalso.
      assert (Ha : In a (a :: r)) by now left. rewrite <- E in Ha. apply filter_In in Ha as [Ha Hp].
      apply In_nth_error in Ha as (j & Hj).
      assert (Hjl : (j < k)%nat).
      { assert (j < length (firstn k l))%nat by (apply nth_error_Some; congruence).
        rewrite firstn_length in H. lia. }
      assert (Hj' : nth_error l j = Some a).
      { rewrite <- (firstn_skipn k l), nth_error_app1; auto. rewrite firstn_length. lia. }
      specialize (HU _ _ Hj' Hp). lia.
  Qed.

  Lemma unpack_all_app (msgs : Z -> Z -> list M) l1 l2 (s : S) :
    unpack_all msgs (l1 ++ l2) s = unpack_all msgs l2 (unpack_all msgs l1 s).
  Proof. revert s. induction l1 as [|[] l1 IH]; intros s; simpl; auto. Qed.

  Lemma unpack_all_none (msgs : Z -> Z -> list M) l (s : S) :
    (forall a, In a l -> match a with ARecv _ _ _ => False | _ => True end) -> unpack_all msgs l s = s.
  Proof.
    induction l as [|a l IH]; intros H; auto. pose proof (H a (or_introl eq_refl)).
    destruct a; simpl; try easy; apply IH; intros b Hb; apply H; now right.
  Qed.
End Lists.
