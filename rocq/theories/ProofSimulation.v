(** Executions of two programs that post the same requests. *)

From Verif Require Import Prelude P2P Rounds PropRepartition.

Section Simulation.
  Context {S1 M1 S2 M2 : Type}.
  Variable RS : S1 -> S2 -> Prop.
  Variable RM : M1 -> M2 -> Prop.

  (** Actions of the same kind, to the same partner and with the same tag, that
      preserve the relations. *)
  Inductive act_rel : @action S1 M1 -> @action S2 M2 -> Prop :=
  | ar_recv s t h h' : (forall m m' x x', RM m m' -> RS x x' -> RS (h m x) (h' m' x')) -> act_rel (ARecv s t h) (ARecv s t h')
  | ar_send d t f f' : (forall x x', RS x x' -> RM (f x) (f' x')) -> act_rel (ASend d t f) (ASend d t f')
  | ar_null : act_rel ANull ANull
  | ar_local f f' : (forall x x', RS x x' -> RS (f x) (f' x')) -> act_rel (ALocal f) (ALocal f').

  Inductive req_rel : @req S1 M1 -> @req S2 M2 -> Prop :=
  | rr_null : req_rel QNull QNull
  | rr_recv s t n h h' : (forall m m' x x', RM m m' -> RS x x' -> RS (h m x) (h' m' x')) -> req_rel (QRecv s t n h) (QRecv s t n h')
  | rr_send d t n : req_rel (QSend d t n) (QSend d t n).

  Record w_rel (x : @wst S1 M1) (y : @wst S2 M2) : Prop := {
    wr_round : wround x = wround y;
    wr_pos : wpos x = wpos y;
    wr_reqs : Forall2 req_rel (wreqs x) (wreqs y);
    wr_cnt : wcnt x = wcnt y;
    wr_data : RS (wdata x) (wdata y)
  }.

  Record g_rel (g : @gst S1 M1) (g' : @gst S2 M2) : Prop := {
    gr_w : forall w, w_rel (gw g w) (gw g' w);
    gr_sent : forall s d t, Forall2 RM (gsent g s d t) (gsent g' s d t);
    gr_recv : forall s d t, grecv g s d t = grecv g' s d t;
    gr_log : glog g = glog g'
  }.

  Variable workers : list Z.
  Variable prog : Z -> list (list (@action S1 M1)).
  Variable prog' : Z -> list (list (@action S2 M2)).
  Hypothesis Hprog : forall w, Forall2 (Forall2 act_rel) (prog w) (prog' w).
  Variable init : Z -> S1.
  Variable init' : Z -> S2.
  Hypothesis Hinit : forall w, RS (init w) (init' w).
  Variable eager : Z -> Z -> Z -> nat -> bool.

  Lemma F2_length {A B} {r : A -> B -> Prop} {l l'} : Forall2 r l l' -> length l = length l'.
  Proof. intros F. induction F; cbn; auto. Qed.

  Lemma F2_nth_error {A B} (r : A -> B -> Prop) l l' i a : Forall2 r l l' -> nth_error l i = Some a ->
    exists b, nth_error l' i = Some b /\ r a b.
  Proof.
    intros F. revert i. induction F as [|x y l l' Hxy F IH]; intros [|i] E; try discriminate; cbn in *.
    - injection E as <-. eauto.
    - eauto.
  Qed.

  Lemma F2_upd {A B} (r : A -> B -> Prop) l l' i a b : Forall2 r l l' -> r a b -> Forall2 r (upd i a l) (upd i b l').
  Proof.
    intros F Hab. revert i. induction F as [|x y l l' Hxy F IH]; intros [|i]; cbn; constructor; auto. 
  Qed.

  Lemma sim_code w r : Forall2 act_rel (code prog w r) (code prog' w r).
  Proof.
    unfold code. pose proof (Hprog w) as F. revert r. induction F as [|x y l l' Hxy F IH]; intros [|r]; cbn; auto.
  Qed.

  Lemma set_w_rel f f' w x x' : (forall u, w_rel (f u) (f' u)) -> w_rel x x' -> forall u, w_rel (set_w f w x u) (set_w f' w x' u).
  Proof. intros Hf Hx u. unfold set_w. destruct (Z.eq_dec u w); auto. Qed.

  Lemma push_rel x x' q q' : w_rel x x' -> req_rel q q' -> w_rel (push x q) (push x' q').
  Proof. intros [] Hq. constructor; cbn; auto; try congruence. apply Forall2_app; auto. Qed.

  Lemma null_rel l l' : Forall2 req_rel l l' -> forallb is_null l = forallb is_null l'.
  Proof. intros F. induction F as [|x y l l' Hxy F IH]; cbn; auto. rewrite IH. destruct Hxy; reflexivity. Qed.

  Lemma exec_rel g g' w a a' : g_rel g g' -> act_rel a a' -> g_rel (exec g w a) (exec g' w a').
  Proof.
    intros [Gw Gs Gr Gl] Ha. pose proof (Gw w) as Hw.
    destruct Ha as [s t h h' Hh|d t f f' Hf| |f f' Hf]; constructor; cbn; auto.
    - apply set_w_rel; auto. apply push_rel; auto. rewrite Gr. now constructor.
    - intros s0 d0 t0. unfold set_c. destruct ((s0 =? s) && (d0 =? w) && (t0 =? t)); auto.
    - apply set_w_rel; auto. apply push_rel; auto. rewrite (F2_length (Gs w d t)). constructor.
    - intros s0 d0 t0. unfold set_c. destruct ((s0 =? w) && (d0 =? d) && (t0 =? t)); auto.
      apply Forall2_app; auto. constructor; [|constructor]. apply Hf, Hw.
    - apply set_w_rel; auto. apply push_rel; auto. constructor.
    - apply set_w_rel; auto. destruct Hw. constructor; cbn; auto.
  Qed.

  Lemma complete_rel g g' w q q' s : g_rel g g' -> req_rel q q' -> complete eager g w q = Some s ->
    exists s', complete eager g' w q' = Some s' /\ RS s s'.
  Proof.
    intros [Gw Gs Gr Gl] Hq E. destruct Hq as [|src t n h h' Hh|d t n]; cbn [complete option_map] in *; [discriminate| |].
    - destruct (nth_error (gsent g src w t) n) as [m|] eqn:En; [|discriminate]. injection E as <-.
      destruct (F2_nth_error _ _ _ _ _ (Gs src w t) En) as (m' & -> & Hm). eexists. split; [reflexivity|].
      apply Hh; auto. apply Gw.
    - rewrite <- Gr. destruct (eager w d t n || (n <? grecv g w d t)%nat); [|discriminate]. injection E as <-.
      eexists. split; [reflexivity|]. apply Gw.
  Qed.

  Lemma step_rel g g' h : g_rel g g' -> step workers prog eager g h ->
    exists h', step workers prog' eager g' h' /\ g_rel h h'.
  Proof.
    intros HG Hs. pose proof HG as [Gw Gs Gr Gl].
    assert (HL : forall w, length (code prog w (wround (gw g w))) = length (code prog' w (wround (gw g' w)))).
    { intros w. rewrite (wr_round _ _ (Gw w)). apply (F2_length (sim_code w _)). }
    destruct Hs as [g w a Hw Ha|g w i q s Hw Hp Hc Hn Hq|g w Hw Hp Hc Hn|g w Hw Hr Hp Hc];
      pose proof (Gw w) as Ww; destruct Ww as [Wr Wp Wq Wc Wd].
    - destruct (F2_nth_error _ _ _ _ _ (sim_code w _) Ha) as (a' & Ha' & Haa).
      rewrite Wr, Wp in Ha'. eexists. split; [eapply step_act; eauto|]. now apply exec_rel.
    - destruct (F2_nth_error _ _ _ _ _ Wq Hn) as (q' & Hn' & Hqq).
      destruct (complete_rel _ _ _ _ _ _ HG Hqq Hq) as (s' & Hq' & Hss).
      eexists. split.
      + eapply step_wait; eauto; [rewrite <- Wp, <- HL; auto|]. rewrite <- Wc, <- (F2_length Wq). auto.
      + constructor; cbn; auto.
        * apply set_w_rel; auto. constructor; cbn; auto. apply F2_upd; auto. constructor.
        * now rewrite Gl, Wr.
    - eexists. split.
      + eapply step_undef; eauto; [rewrite <- Wp, <- HL; auto| |].
        * rewrite <- Wc, <- (F2_length Wq). auto.
        * rewrite <- (null_rel _ _ Wq). auto.
      + constructor; cbn; auto. apply set_w_rel; auto. constructor; cbn; auto.
    - eexists. split.
      + eapply step_next; eauto; [|rewrite <- Wp, <- HL; auto|].
        * rewrite <- Wr, <- (F2_length (Hprog w)). auto.
        * rewrite <- Wc, <- (F2_length Wq). auto.
      + constructor; cbn; auto. apply set_w_rel; auto. constructor; cbn; auto.
  Qed.

  Lemma run_rel n g : run workers prog init eager n g ->
    exists g', run workers prog' init' eager n g' /\ g_rel g g'.
  Proof.
    intros Hr. induction Hr as [|n g h Hr IH Hs].
    - eexists. split; [constructor|]. constructor; cbn; auto. intros w. constructor; cbn; auto.
    - destruct IH as (g' & Hr' & HG). destruct (step_rel _ _ _ HG Hs) as (h' & Hs' & HH).
      exists h'. split; auto. econstructor; eauto.
  Qed.

  Lemma done_rel g g' : g_rel g g' -> done workers prog g -> done workers prog' g'.
  Proof.
    intros HG Hd w Hw. rewrite <- (wr_round _ _ (gr_w _ _ HG w)), <- (F2_length (Hprog w)). auto.
  Qed.
End Simulation.

(** Programs in rounds. *)
Lemma ends_rel {S1 M1 S2 M2} (RS : S1 -> S2 -> Prop) (RM : M1 -> M2 -> Prop) world
    (rs : list (@round S1 M1)) (rs' : list (@round S2 M2)) init init' eager g :
  Forall2 (fun rd rd' => forall w, Forall2 (act_rel RS RM) (rd w) (rd' w)) rs rs' ->
  (forall w, RS (init w) (init' w)) ->
  ends world rs init eager g ->
  exists g', ends world rs' init' eager g' /\ g_rel RS RM g g'.
Proof.
  intros F Hi (n & Hr & Hd).
  assert (HP : forall w, Forall2 (Forall2 (act_rel RS RM)) (rounds_prog rs w) (rounds_prog rs' w)).
  { clear - F. intros w. unfold rounds_prog. induction F as [|rd rd' rs rs' Hrd F IH]; cbn; constructor; auto. }
  destruct (run_rel RS RM world _ _ HP init init' Hi eager n g Hr) as (g' & Hr' & HG).
  exists g'. split; auto. exists n. split; auto. eapply done_rel; eauto.
Qed.
