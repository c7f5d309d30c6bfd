(** Proofs about one dimension of a halo exchange: four requests between
    neighbours. *)

From Coq Require Import RelationClasses.
From Verif Require Import Prelude ModelSlicing ModelPartition SpecIndex ProofSlicing Ring Tensor P2P Rounds
  ModelRepartition ProofTransfer ModelHaloMixin ModelHaloExchange.

Section States.
  Context {R : CRing}.
  Notation tensor := (tensor R).
  Notation hst := (@hst R).
  Notation action := (@action hst tensor).

  Record eqH (a b : hst) : Prop := {
    eh_t : steq (h_t a) (h_t b);
    eh_l : steq (h_l a) (h_l b);
    eh_r : steq (h_r a) (h_r b);
    eh_hist : Forall2 steq (h_hist a) (h_hist b)
  }.

  Lemma steqs_refl (l : list tensor) : Forall2 steq l l.
  Proof. induction l; constructor; auto. reflexivity. Qed.

  Global Instance eqH_equiv : Equivalence eqH.
  Proof.
    split.
    - intros a. constructor; try reflexivity. apply steqs_refl.
    - intros a b []. constructor; try (symmetry; assumption).
      clear - eh_hist0. induction eh_hist0; constructor; auto. now symmetry.
    - intros a b c [] []. constructor; try (etransitivity; eassumption).
      clear - eh_hist0 eh_hist1. revert eh_hist1. generalize (h_hist c) as l3.
      induction eh_hist0; intros l3 H3; inv H3; constructor; auto. etransitivity; eassumption.
  Qed.

  Lemma set_t_proper t t' s s' : steq t t' -> eqH s s' -> eqH (set_t t s) (set_t t' s').
  Proof. intros Ht []. constructor; simpl; auto. Qed.

  (** * Links between workers *)

  Variable world : list Z.
  Variable pack : (tensor -> hst -> hst) -> list slice -> hst -> hst.
  Variable unpack : list slice -> tensor -> tensor -> tensor.
  Variable tp : Z -> bool.
  Variables lrecv rrecv lsend rsend : Z -> link.

  Definition link_round (v : Z) : list action :=
    if tp v then exchange pack unpack (lrecv v) (rrecv v) (lsend v) (rsend v) else [].

  (** [a] on worker [v] is paired with [b] on its partner. *)
  Definition paired (a b : Z -> link) : Prop :=
    forall v, In v world -> tp v = true -> k_on (a v) = true ->
      let u := k_peer (a v) in
      In u world /\ tp u = true /\ k_on (b u) = true /\ k_peer (b u) = v.

  Hypothesis Tlr : forall v, k_tag (lrecv v) = rtag.
  Hypothesis Trr : forall v, k_tag (rrecv v) = ltag.
  Hypothesis Tls : forall v, k_tag (lsend v) = ltag.
  Hypothesis Trs : forall v, k_tag (rsend v) = rtag.
  Hypothesis Plr : paired lrecv rsend.
  Hypothesis Prs : paired rsend lrecv.
  Hypothesis Prr : paired rrecv lsend.
  Hypothesis Pls : paired lsend rrecv.

  Hypothesis pack_proper_l : forall sl s s', eqH s s' -> eqH (pack set_l sl s) (pack set_l sl s').
  Hypothesis pack_proper_r : forall sl s s', eqH s s' -> eqH (pack set_r sl s) (pack set_r sl s').
  Hypothesis unpack_proper : forall sl m m' t t', steq m m' -> steq t t' -> steq (unpack sl m t) (unpack sl m' t').
  Hypothesis unpack_commute : forall v m m' t, In v world -> tp v = true ->
    steq (unpack (k_sl (lrecv v)) m (unpack (k_sl (rrecv v)) m' t))
         (unpack (k_sl (rrecv v)) m' (unpack (k_sl (lrecv v)) m t)).

  Definition sends_to (k : link) (d : Z) : bool := k_on k && (k_peer k =? d).

  Lemma link_sends u d t : sends_in d t (link_round u) =
    if tp u then
      if t =? ltag then (if sends_to (lsend u) d then 1%nat else 0%nat)
      else if t =? rtag then (if sends_to (rsend u) d then 1%nat else 0%nat) else 0%nat
    else 0%nat.
  Proof.
    unfold link_round. destruct (tp u); auto.
    unfold exchange, sends_in, recv_link, send_link, local_if, sends_to.
    destruct (k_on (lrecv u)), (k_on (rrecv u)), (k_on (lsend u)), (k_on (rsend u)); cbn [filter is_send andb];
      rewrite ?Tls, ?Trs; unfold ltag, rtag; rewrite ?(Z.eqb_sym 0 t), ?(Z.eqb_sym 1 t);
      destruct (Z.eqb_spec t 0) as [E0|E0]; destruct (Z.eqb_spec t 1) as [E1|E1]; try lia;
      rewrite ?andb_false_r, ?andb_true_r; try reflexivity;
      try (destruct (k_peer (lsend u) =? d); reflexivity);
      try (destruct (k_peer (rsend u) =? d); reflexivity).
  Qed.

  Lemma link_recvs u d t : recvs_in d t (link_round u) =
    if tp u then
      if t =? ltag then (if sends_to (rrecv u) d then 1%nat else 0%nat)
      else if t =? rtag then (if sends_to (lrecv u) d then 1%nat else 0%nat) else 0%nat
    else 0%nat.
  Proof.
    unfold link_round. destruct (tp u); auto.
    unfold exchange, recvs_in, recv_link, send_link, local_if, sends_to.
    destruct (k_on (lrecv u)), (k_on (rrecv u)), (k_on (lsend u)), (k_on (rsend u)); cbn [filter is_recv andb];
      rewrite ?Tlr, ?Trr; unfold ltag, rtag; rewrite ?(Z.eqb_sym 0 t), ?(Z.eqb_sym 1 t);
      destruct (Z.eqb_spec t 0) as [E0|E0]; destruct (Z.eqb_spec t 1) as [E1|E1]; try lia;
      rewrite ?andb_false_r, ?andb_true_r; try reflexivity;
      try (destruct (k_peer (lrecv u) =? d); reflexivity);
      try (destruct (k_peer (rrecv u) =? d); reflexivity).
  Qed.

  Lemma paired_eq a b s d : paired a b -> paired b a -> In s world -> In d world ->
    (tp s && sends_to (a s) d) = (tp d && sends_to (b d) s).
  Proof.
    intros Hab Hba Hs Hd.
    assert (G : forall a b s d, paired a b -> In s world -> (tp s && sends_to (a s) d) = true ->
                (tp d && sends_to (b d) s) = true).
    { clear. intros a b s d Hab Hs E. unfold sends_to in *. rewrite !andb_true_iff in *. destruct E as (E1 & E2 & E3).
      apply Z.eqb_eq in E3. destruct (Hab s Hs E1 E2) as (H1 & H2 & H3 & H4). rewrite E3 in *.
      rewrite Z.eqb_eq. auto. }
    destruct (tp s && sends_to (a s) d) eqn:E1, (tp d && sends_to (b d) s) eqn:E2; auto.
    - rewrite (G a b s d) in E2; auto.
    - rewrite (G b a d s) in E1; auto.
  Qed.

  Lemma link_round_ok : round_ok world eqH steq link_round.
  Proof.
    constructor.
    - intros w d t Hw. rewrite link_sends. destruct (tp w) eqn:Et; [|lia].
      destruct (t =? ltag); [|destruct (t =? rtag); [|lia]].
      + destruct (sends_to (lsend w) d) eqn:E; [|lia]. intros _. unfold sends_to in E. breflect. subst d.
        now apply Pls.
      + destruct (sends_to (rsend w) d) eqn:E; [|lia]. intros _. unfold sends_to in E. breflect. subst d.
        now apply Prs.
    - intros w d t Hw. rewrite link_recvs. destruct (tp w) eqn:Et; [|lia].
      destruct (t =? ltag); [|destruct (t =? rtag); [|lia]].
      + destruct (sends_to (rrecv w) d) eqn:E; [|lia]. intros _. unfold sends_to in E. breflect. subst d.
        now apply Prr.
      + destruct (sends_to (lrecv w) d) eqn:E; [|lia]. intros _. unfold sends_to in E. breflect. subst d.
        now apply Plr.
    - intros s d t Hs Hd. rewrite link_sends, link_recvs.
      pose proof (paired_eq lsend rrecv s d Pls Prr Hs Hd) as E0.
      pose proof (paired_eq rsend lrecv s d Prs Plr Hs Hd) as E1.
      destruct (tp s), (tp d); cbn [andb] in E0, E1; destruct (t =? ltag), (t =? rtag);
        rewrite ?E0, ?E1; try rewrite <- E0; try rewrite <- E1; split; auto;
        repeat match goal with |- context [if ?b then _ else _] => destruct b end; lia.
    - intros w a Hw Ha. unfold link_round in Ha. destruct (tp w); [|easy].
      unfold exchange in Ha. simpl in Ha.
      destruct Ha as [<-|[<-|[<-|[<-|[<-|[<-|[]]]]]]]; unfold local_if, recv_link, send_link.
      + simpl. intros. destruct (k_on (lsend w)); auto.
      + simpl. intros. destruct (k_on (rsend w)); auto.
      + destruct (k_on (lrecv w)); simpl; auto. intros m m' s s' Hm Hs. apply set_t_proper; auto.
        apply unpack_proper; auto. apply Hs.
      + destruct (k_on (rrecv w)); simpl; auto. intros m m' s s' Hm Hs. apply set_t_proper; auto.
        apply unpack_proper; auto. apply Hs.
      + destruct (k_on (lsend w)); simpl; auto. intros s s' Hs. apply Hs.
      + destruct (k_on (rsend w)); simpl; auto. intros s s' Hs. apply Hs.
    - intros w Hw. unfold link_round. destruct (tp w) eqn:Et; [|constructor].
      unfold exchange.
      assert (N : forall b f l, Forall (act_commute eqH (local_if b f)) l).
      { intros. apply Forall_forall. intros x _. exact I. }
      assert (NS : forall f k l, Forall (act_commute eqH (send_link f k)) l).
      { intros. apply Forall_forall. intros x _. unfold send_link. destruct (k_on k); exact I. }
      constructor; [apply N|]. constructor; [apply N|].
      constructor.
      + constructor; [|constructor; [|constructor; [|constructor]]].
        * unfold recv_link. destruct (k_on (lrecv w)), (k_on (rrecv w)); simpl; auto.
          intros m m' s. constructor; simpl; try reflexivity; [|apply steqs_refl].
          now apply unpack_commute.
        * unfold recv_link, send_link. destruct (k_on (lrecv w)), (k_on (lsend w)); exact I.
        * unfold recv_link, send_link. destruct (k_on (lrecv w)), (k_on (rsend w)); exact I.
      + constructor.
        * constructor; [|constructor; [|constructor]].
          -- unfold recv_link, send_link. destruct (k_on (rrecv w)), (k_on (lsend w)); exact I.
          -- unfold recv_link, send_link. destruct (k_on (rrecv w)), (k_on (rsend w)); exact I.
        * constructor; [apply NS|]. constructor; [apply NS|]. constructor.
  Qed.

  (** What a worker holds after packing. *)
  Definition packed (v : Z) (s : hst) : hst :=
    let s' := if k_on (lsend v) then pack set_l (k_sl (lsend v)) s else s in
    if k_on (rsend v) then pack set_r (k_sl (rsend v)) s' else s'.

  Lemma link_pay_left u d s : tp u = true -> sends_to (lsend u) d = true ->
    pay d ltag (link_round u) s = [h_l (packed u s)].
  Proof.
    intros Hu E. unfold sends_to in E. apply andb_true_iff in E as [E1 E2].
    unfold link_round. rewrite Hu. unfold exchange, recv_link, send_link, local_if, packed. rewrite E1.
    destruct (k_on (lrecv u)), (k_on (rrecv u)), (k_on (rsend u)); cbn [pay];
      rewrite E2, Tls, ?Trs; unfold ltag, rtag; cbn [Z.eqb andb Pos.eqb]; rewrite ?andb_false_r; reflexivity.
  Qed.

  Lemma link_pay_right u d s : tp u = true -> sends_to (rsend u) d = true ->
    pay d rtag (link_round u) s = [h_r (packed u s)].
  Proof.
    intros Hu E. unfold sends_to in E. apply andb_true_iff in E as [E1 E2].
    unfold link_round. rewrite Hu. unfold exchange, recv_link, send_link, local_if, packed. rewrite E1.
    destruct (k_on (lrecv u)), (k_on (rrecv u)), (k_on (lsend u)); cbn [pay];
      rewrite E2, Trs, ?Tls; unfold ltag, rtag; cbn [Z.eqb andb Pos.eqb]; rewrite ?andb_false_r; reflexivity.
  Qed.

  (** The effect of the round. *)
  Definition link_result (S0 : Z -> hst) (v : Z) : hst :=
    if tp v then
      let s0 := packed v (S0 v) in
      let s1 := if k_on (lrecv v)
                then set_t (unpack (k_sl (lrecv v)) (h_r (packed (k_peer (lrecv v)) (S0 (k_peer (lrecv v))))) (h_t s0)) s0
                else s0 in
      if k_on (rrecv v)
      then set_t (unpack (k_sl (rrecv v)) (h_l (packed (k_peer (rrecv v)) (S0 (k_peer (rrecv v))))) (h_t s1)) s1
      else s1
    else S0 v.

  Lemma link_sync S0 v : In v world -> sync1 link_round S0 v = link_result S0 v.
  Proof.
    intros Hv. unfold sync1, link_result. destruct (tp v) eqn:Et.
    - assert (EL : k_on (lrecv v) = true ->
        pay v rtag (link_round (k_peer (lrecv v))) (S0 (k_peer (lrecv v)))
        = [h_r (packed (k_peer (lrecv v)) (S0 (k_peer (lrecv v))))]).
      { intros Eo. destruct (Plr v Hv Et Eo) as (H1 & H2 & H3 & H4). apply link_pay_right; auto.
        unfold sends_to. now rewrite H3, H4, Z.eqb_refl. }
      assert (ER : k_on (rrecv v) = true ->
        pay v ltag (link_round (k_peer (rrecv v))) (S0 (k_peer (rrecv v)))
        = [h_l (packed (k_peer (rrecv v)) (S0 (k_peer (rrecv v))))]).
      { intros Eo. destruct (Prr v Hv Et Eo) as (H1 & H2 & H3 & H4). apply link_pay_left; auto.
        unfold sends_to. now rewrite H3, H4, Z.eqb_refl. }
      assert (EA : acts_run (link_round v) (S0 v) = packed v (S0 v)).
      { unfold link_round. rewrite Et. unfold exchange, recv_link, send_link, local_if, packed.
        destruct (k_on (lrecv v)), (k_on (rrecv v)), (k_on (lsend v)), (k_on (rsend v)); reflexivity. }
      rewrite EA. generalize (packed v (S0 v)) as s0. intros s0.
      remember (fun src t => pay v t (link_round src) (S0 src)) as msgs eqn:Em.
      assert (EL' : k_on (lrecv v) = true -> msgs (k_peer (lrecv v)) rtag
        = [h_r (packed (k_peer (lrecv v)) (S0 (k_peer (lrecv v))))]) by (subst msgs; auto).
      assert (ER' : k_on (rrecv v) = true -> msgs (k_peer (rrecv v)) ltag
        = [h_l (packed (k_peer (rrecv v)) (S0 (k_peer (rrecv v))))]) by (subst msgs; auto).
      clear EL ER EA Em. unfold link_round. rewrite Et. unfold exchange, recv_link, send_link, local_if.
      destruct (k_on (lrecv v)), (k_on (rrecv v)), (k_on (lsend v)), (k_on (rsend v)); cbn [unpack_all];
        rewrite ?Tlr, ?Trr, ?EL', ?ER' by reflexivity; reflexivity.
    - unfold link_round at 2 3. rewrite Et. reflexivity.
  Qed.
End States.

Arguments eqH {R}.
