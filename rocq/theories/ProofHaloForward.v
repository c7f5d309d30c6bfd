(** The forward halo exchange after calls in machine arithmetic.

    An execution with an arbitrary addition is followed by one in the ring, whose
    tensors agree wherever a flag says so.  Flags are sent along; adding spoils them,
    loading the argument of the last call clears them. *)

From Verif Require Import Prelude SpecIndex SpecLayout SpecPartition SpecHalo ModelSlicing ModelDecomposition ModelPartition Ring Tensor
  P2P Rounds ModelHaloMixin ModelRepartition ProofTransfer PropRepartition ModelHaloExchange ProofHaloLinks ProofHaloZones PropHaloExchange
  ModelHaloReduce ProofSimulation ProofHaloReduce.

Notation flag := (tensor Zring).
Definition flag_of (z : Z) : flag := @mkt Zring [] (fun _ => z).
Definition clean (f : flag) : Prop := tat f [] = 0.
Definition both (m t : flag) : flag := flag_of (if (tat m [] =? 0) && (tat t [] =? 0) then 0 else 1).

(** What the passes do to the flags. *)
Definition fpack (set : flag -> @hst Zring -> @hst Zring) (_ : list slice) (s : @hst Zring) : @hst Zring := set (h_t s) s.
Definition ffwd (_ : list slice) (m t : flag) : flag := both m t.
Definition fbwd (_ : list slice) (_ _ : flag) : flag := flag_of 1.

Section Forward.
  Context {R : CRing}.
  Variables (P : part) (shape : Z -> list Z) (recv send : Z -> list (Z * Z)) (add : R -> R -> R).
  Notation tensor := (tensor R).
  Notation S2 := ((@hst R * @hst Zring)%type).
  Notation M2 := ((tensor * flag)%type).

  Definition agree (t u : tensor) (f : flag) : Prop := clean f -> steq t u.
  Record s_agree (x : @hst R) (y : S2) : Prop := {
    sa_t : agree (h_t x) (h_t (fst y)) (h_t (snd y));
    sa_l : agree (h_l x) (h_l (fst y)) (h_l (snd y));
    sa_r : agree (h_r x) (h_r (fst y)) (h_r (snd y));
    sa_hist : clean (last (h_hist (snd y)) (flag_of 1)) ->
      steq (last (h_hist x) (mkt [] (fun _ => rzero))) (last (h_hist (fst y)) (mkt [] (fun _ => rzero)))
  }.
  Definition m_agree (m : tensor) (y : M2) : Prop := agree m (fst y) (snd y).

  (** ** The ring's execution and the flags together *)
  Definition exchange_pair (pack : (tensor -> @hst R -> @hst R) -> list slice -> @hst R -> @hst R) (unpack : list slice -> tensor -> tensor -> tensor)
      (unpackf : list slice -> flag -> flag -> flag) (lrecv rrecv lsend rsend : link) : list (@action S2 M2) :=
    [ ALocal (fun s => if k_on lsend then (pack set_l (k_sl lsend) (fst s), fpack set_l (k_sl lsend) (snd s)) else s);
      ALocal (fun s => if k_on rsend then (pack set_r (k_sl rsend) (fst s), fpack set_r (k_sl rsend) (snd s)) else s);
      (if k_on lrecv then ARecv (k_peer lrecv) (k_tag lrecv) (fun m s =>
         (set_t (unpack (k_sl lrecv) (fst m) (h_t (fst s))) (fst s), set_t (unpackf (k_sl lrecv) (snd m) (h_t (snd s))) (snd s))) else ANull);
      (if k_on rrecv then ARecv (k_peer rrecv) (k_tag rrecv) (fun m s =>
         (set_t (unpack (k_sl rrecv) (fst m) (h_t (fst s))) (fst s), set_t (unpackf (k_sl rrecv) (snd m) (h_t (snd s))) (snd s))) else ANull);
      (if k_on lsend then ASend (k_peer lsend) (k_tag lsend) (fun s => (h_l (fst s), h_l (snd s))) else ANull);
      (if k_on rsend then ASend (k_peer rsend) (k_tag rsend) (fun s => (h_r (fst s), h_r (snd s))) else ANull) ].
  Definition forward_pair (i : nat) (v : Z) : list (@action S2 M2) :=
    if takes_part P v then
      let d := halo_dim P shape recv send v i in
      exchange_pair fwd_pack fwd_unpack ffwd (fwd_lrecv d) (fwd_rrecv d) (fwd_lsend d) (fwd_rsend d)
    else [].
  Definition backward_pair (i : nat) (v : Z) : list (@action S2 M2) :=
    if takes_part P v then
      let d := halo_dim P shape recv send v i in
      exchange_pair bwd_pack bwd_unpack fbwd (bwd_lrecv d) (bwd_rrecv d) (bwd_lsend d) (bwd_rsend d)
    else [].
  Definition load_pair (x : Z -> tensor) (z v : Z) : list (@action S2 M2) := [ALocal (fun s => (set_t (x v) (fst s), set_t (flag_of z) (snd s)))].
  Definition store_pair (v : Z) : list (@action S2 M2) :=
    [ALocal (fun s => (mkhst (h_t (fst s)) (h_l (fst s)) (h_r (fst s)) (h_hist (fst s) ++ [h_t (fst s)]),
                       mkhst (h_t (snd s)) (h_l (snd s)) (h_r (snd s)) (h_hist (snd s) ++ [h_t (snd s)])))].
  Definition call_pair (z : Z) (c : @call R) : list (@round S2 M2) :=
    let dim := length (p_shape P) in
    match c with
    | HForward x => [load_pair x z] ++ map forward_pair (seq 0 dim) ++ [store_pair]
    | HBackward x => [load_pair x z] ++ map backward_pair (rev (seq 0 dim)) ++ [store_pair]
    end.
  Definition history_pair (pre : list (@call R)) (x : Z -> tensor) : list (@round S2 M2) := flat_map (call_pair 1) pre ++ call_pair 0 (HForward x).

  (** ** The machine's execution *)
  Notation rel1 := (act_rel s_agree m_agree).
  Lemma last_app {A} (l : list A) a d : last (l ++ [a]) d = a.
  Proof. apply last_last. Qed.
  Lemma not_clean : ~ clean (flag_of 1).
  Proof. unfold clean. cbn. lia. Qed.
  Lemma both_clean m t : clean (both m t) -> clean m /\ clean t.
  Proof. unfold clean, both. cbn. destruct (Z.eqb_spec (tat m []) 0), (Z.eqb_spec (tat t []) 0); cbn; auto; lia. Qed.

  Lemma exchange_agree packA unpackA pack unpack unpackf :
    (forall sl x y, s_agree x y -> s_agree (packA set_l sl x) (pack set_l sl (fst y), fpack set_l sl (snd y))) ->
    (forall sl x y, s_agree x y -> s_agree (packA set_r sl x) (pack set_r sl (fst y), fpack set_r sl (snd y))) ->
    (forall sl m m' f t t' g, agree m m' f -> agree t t' g -> agree (unpackA sl m t) (unpack sl m' t') (unpackf sl f g)) ->
    forall a b c d, Forall2 rel1 (exchange packA unpackA a b c d) (exchange_pair pack unpack unpackf a b c d).
  Proof.
    intros Hl Hr Hu a b c d. unfold exchange, exchange_pair, local_if, recv_link, send_link.
    assert (U : forall sl m (y : M2) x s, m_agree m y -> s_agree x s ->
      s_agree (set_t (unpackA sl m (h_t x)) x) (set_t (unpack sl (fst y) (h_t (fst s))) (fst s), set_t (unpackf sl (snd y) (h_t (snd s))) (snd s))).
    { intros sl m y x s Hm []. constructor; cbn [fst snd set_t h_t h_l h_r h_hist]; auto. }
    constructor; [|constructor; [|constructor; [|constructor; [|constructor; [|constructor; [|constructor]]]]]].
    - constructor. intros x y Hs. destruct (k_on c); auto.
    - constructor. intros x y Hs. destruct (k_on d); auto.
    - destruct (k_on a); constructor; auto.
    - destruct (k_on b); constructor; auto.
    - destruct (k_on c); constructor. intros x y []. auto.
    - destruct (k_on d); constructor. intros x y []. auto.
  Qed.

  Lemma forward_agree i v : Forall2 rel1 (forward_round P shape recv send i v) (forward_pair i v).
  Proof.
    unfold forward_round, forward_pair. destruct (takes_part P v); [|constructor]. apply exchange_agree; auto.
    - intros sl x y []. constructor; cbn [fst snd fwd_pack fpack set_l h_t h_l h_r h_hist]; auto. intros C. apply read_proper. now apply sa_t0.
    - intros sl x y []. constructor; cbn [fst snd fwd_pack fpack set_r h_t h_l h_r h_hist]; auto. intros C. apply read_proper. now apply sa_t0.
    - intros sl m m' f t t' g Hm Ht C. apply both_clean in C as [C1 C2]. unfold fwd_unpack. apply write_proper; auto.
  Qed.

  Lemma backward_agree i v : Forall2 rel1 (backward_round_by P shape recv send add i v) (backward_pair i v).
  Proof.
    unfold backward_round_by, backward_pair. destruct (takes_part P v); [|constructor]. apply exchange_agree; auto.
    - intros sl x y []. constructor; cbn [fst snd bwd_pack fpack set_t set_l h_t h_l h_r h_hist]; auto; intros C.
      + apply zero_proper. now apply sa_t0.
      + apply read_proper. now apply sa_t0.
    - intros sl x y []. constructor; cbn [fst snd bwd_pack fpack set_t set_r h_t h_l h_r h_hist]; auto; intros C.
      + apply zero_proper. now apply sa_t0.
      + apply read_proper. now apply sa_t0.
    - intros sl m m' f t t' g Hm Ht C. now apply not_clean in C.
  Qed.

  Lemma load_agree x z v : Forall2 rel1 (load_round x v) (load_pair x z v).
  Proof.
    constructor; [|constructor]. constructor. intros s y []. constructor; cbn [fst snd set_t h_t h_l h_r h_hist]; auto.
    intros _. reflexivity.
  Qed.
  Lemma store_agree v : Forall2 rel1 (store_round v) (store_pair v).
  Proof.
    constructor; [|constructor]. constructor. intros s y []. constructor; cbn [fst snd h_t h_l h_r h_hist]; auto. rewrite !last_app. auto.
  Qed.
  Lemma call_agree z c : Forall2 (fun rd rd' => forall w, Forall2 rel1 (rd w) (rd' w)) (call_rounds_by P shape recv send add c) (call_pair z c).
  Proof.
    destruct c as [x|x]; cbn [call_rounds_by call_pair app]; (constructor; [apply load_agree|]); apply Forall2_app;
      try (constructor; [apply store_agree|constructor]); apply F2_map; intros; [apply forward_agree|apply backward_agree].
  Qed.
  Lemma history_agree pre x : Forall2 (fun rd rd' => forall w, Forall2 rel1 (rd w) (rd' w))
    (history_rounds_by P shape recv send add (pre ++ [HForward x])) (history_pair pre x).
  Proof.
    unfold history_rounds_by, history_pair. rewrite flat_map_app. apply Forall2_app.
    - induction pre; cbn [flat_map]; [constructor|]. apply Forall2_app; auto. apply call_agree.
    - cbn [flat_map]. rewrite app_nil_r. apply call_agree.
  Qed.

  (** ** The ring's execution *)
  Notation rel2 := (act_rel (fun (s2 : S2) (s : @hst R) => fst s2 = s) (fun (m2 : M2) (m : tensor) => fst m2 = m)).
  Lemma exchange_ring pack unpack unpackf a b c d : Forall2 rel2 (exchange_pair pack unpack unpackf a b c d) (exchange pack unpack a b c d).
  Proof.
    unfold exchange, exchange_pair, local_if, recv_link, send_link.
    constructor; [|constructor; [|constructor; [|constructor; [|constructor; [|constructor; [|constructor]]]]]].
    - constructor. intros s2 s <-. now destruct (k_on c).
    - constructor. intros s2 s <-. now destruct (k_on d).
    - destruct (k_on a); constructor. intros m2 m s2 s <- <-. reflexivity.
    - destruct (k_on b); constructor. intros m2 m s2 s <- <-. reflexivity.
    - destruct (k_on c); constructor. intros s2 s <-. reflexivity.
    - destruct (k_on d); constructor. intros s2 s <-. reflexivity.
  Qed.
  Lemma call_ring z c : Forall2 (fun rd rd' => forall w, Forall2 rel2 (rd w) (rd' w)) (call_pair z c) (call_rounds P shape recv send c).
  Proof.
    assert (Lo : forall x w, Forall2 rel2 (load_pair x z w) (load_round x w)).
    { intros x w. constructor; [|constructor]. constructor. intros s2 s <-. reflexivity. }
    assert (St : forall w, Forall2 rel2 (store_pair w) (store_round w)).
    { intros w. constructor; [|constructor]. constructor. intros s2 s <-. reflexivity. }
    destruct c as [x|x]; cbn [call_rounds call_pair app]; (constructor; [apply Lo|]); apply Forall2_app;
      try (constructor; [apply St|constructor]); apply F2_map; intros i w.
    - unfold forward_pair, forward_round. destruct (takes_part P w); [apply exchange_ring|constructor].
    - unfold backward_pair, backward_round. destruct (takes_part P w); [apply exchange_ring|constructor].
  Qed.
  Lemma history_ring pre x : Forall2 (fun rd rd' => forall w, Forall2 rel2 (rd w) (rd' w))
    (history_pair pre x) (history_rounds P shape recv send (pre ++ [HForward x])).
  Proof.
    unfold history_rounds, history_pair. rewrite flat_map_app. apply Forall2_app.
    - induction pre; cbn [flat_map]; [constructor|]. apply Forall2_app; auto. apply call_ring.
    - cbn [flat_map]. rewrite app_nil_r. apply call_ring.
  Qed.

  (** ** The flags *)
  Definition forward_flag (i : nat) (v : Z) : list (@action (@hst Zring) flag) :=
    if takes_part P v then
      let d := halo_dim P shape recv send v i in
      exchange fpack ffwd (fwd_lrecv d) (fwd_rrecv d) (fwd_lsend d) (fwd_rsend d)
    else [].
  Definition backward_flag (i : nat) (v : Z) : list (@action (@hst Zring) flag) :=
    if takes_part P v then
      let d := halo_dim P shape recv send v i in
      exchange fpack fbwd (bwd_lrecv d) (bwd_rrecv d) (bwd_lsend d) (bwd_rsend d)
    else [].
  Definition call_flag (z : Z) (c : @call R) : list (@round (@hst Zring) flag) :=
    let dim := length (p_shape P) in
    match c with
    | HForward _ => [load_round (fun _ => flag_of z)] ++ map forward_flag (seq 0 dim) ++ [store_round]
    | HBackward _ => [load_round (fun _ => flag_of z)] ++ map backward_flag (rev (seq 0 dim)) ++ [store_round]
    end.
  Definition history_flag (pre : list (@call R)) (x : Z -> tensor) := flat_map (call_flag 1) pre ++ call_flag 0 (HForward x).

  Notation rel3 := (act_rel (fun (s2 : S2) (s : @hst Zring) => snd s2 = s) (fun (m2 : M2) (m : flag) => snd m2 = m)).
  Lemma exchange_flag pack unpack unpackf a b c d : Forall2 rel3 (exchange_pair pack unpack unpackf a b c d) (exchange fpack unpackf a b c d).
  Proof.
    unfold exchange, exchange_pair, local_if, recv_link, send_link.
    constructor; [|constructor; [|constructor; [|constructor; [|constructor; [|constructor; [|constructor]]]]]].
    - constructor. intros s2 s <-. now destruct (k_on c).
    - constructor. intros s2 s <-. now destruct (k_on d).
    - destruct (k_on a); constructor. intros m2 m s2 s <- <-. reflexivity.
    - destruct (k_on b); constructor. intros m2 m s2 s <- <-. reflexivity.
    - destruct (k_on c); constructor. intros s2 s <-. reflexivity.
    - destruct (k_on d); constructor. intros s2 s <-. reflexivity.
  Qed.
  Lemma call_flags z c : Forall2 (fun rd rd' => forall w, Forall2 rel3 (rd w) (rd' w)) (call_pair z c) (call_flag z c).
  Proof.
    assert (Lo : forall x w, Forall2 rel3 (load_pair x z w) (load_round (fun _ => flag_of z) w)).
    { intros x w. constructor; [|constructor]. constructor. intros s2 s <-. reflexivity. }
    assert (St : forall w, Forall2 rel3 (store_pair w) (store_round w)).
    { intros w. constructor; [|constructor]. constructor. intros s2 s <-. reflexivity. }
    destruct c as [x|x]; cbn [call_flag call_pair app]; (constructor; [apply Lo|]); apply Forall2_app;
      try (constructor; [apply St|constructor]); apply F2_map; intros i w.
    - unfold forward_pair, forward_flag. destruct (takes_part P w); [apply exchange_flag|constructor].
    - unfold backward_pair, backward_flag. destruct (takes_part P w); [apply exchange_flag|constructor].
  Qed.
  Lemma history_flags pre x : Forall2 (fun rd rd' => forall w, Forall2 rel3 (rd w) (rd' w)) (history_pair pre x) (history_flag pre x).
  Proof.
    unfold history_flag, history_pair. apply Forall2_app; [|apply call_flags].
    induction pre; cbn [flat_map]; [constructor|]. apply Forall2_app; auto. apply call_flags.
  Qed.

  (** In lock-step the last call keeps the flags clean. *)
  Lemma flag_round i (S0 : Z -> @hst Zring) : (forall w, clean (h_t (S0 w))) -> forall w, clean (h_t (sync1 (forward_flag i) S0 w)).
  Proof.
    intros H w. unfold sync1.
    assert (Pay : forall d t u m, In m (pay d t (forward_flag i u) (S0 u)) -> clean m).
    { intros d t u m. unfold forward_flag. destruct (takes_part P u); [|intros []]. unfold exchange, local_if, recv_link, send_link.
      destruct (k_on (fwd_lrecv _)), (k_on (fwd_rrecv _)), (k_on (fwd_lsend _)), (k_on (fwd_rsend _)); cbn [pay];
        repeat match goal with |- context [if ?b then _ else _] => destruct b end; cbn [In fpack set_l set_r h_l h_r h_t];
        intros Hm; repeat destruct Hm as [<-|Hm]; try apply H; destruct Hm. }
    assert (U : forall l s, (forall a, In a l -> match a with ARecv _ _ h => forall m s, clean m -> clean (h_t s) -> clean (h_t (h m s)) | _ => True end) ->
      clean (h_t s) -> clean (h_t (unpack_all (fun src t => pay w t (forward_flag i src) (S0 src)) l s))).
    { induction l as [|a l IH]; intros s Hl Hs; [exact Hs|]. pose proof (Hl a (or_introl eq_refl)) as Ha.
      destruct a as [src t h|d t f| |f]; cbn [unpack_all]; apply IH; auto; try (intros b Hb; apply Hl; now right).
      destruct (pay w t (forward_flag i src) (S0 src)) as [|m ms] eqn:E; auto. apply Ha; auto. apply (Pay w t src). rewrite E. now left. }
    apply U.
    - intros a Ha. unfold forward_flag in Ha. destruct (takes_part P w); [|destruct Ha].
      assert (C : forall sl m (s : @hst Zring), clean m -> clean (h_t s) -> clean (h_t (set_t (ffwd sl m (h_t s)) s))).
      { intros sl m s Hm Hs. unfold clean, ffwd, both, set_t in *. cbn. now rewrite Hm, Hs. }
      unfold exchange, local_if, recv_link, send_link in Ha. cbn [In] in Ha.
      destruct Ha as [<-|[<-|[<-|[<-|[<-|[<-|[]]]]]]]; auto.
      + destruct (k_on _); auto. 
      + destruct (k_on _); auto.
      + destruct (k_on _); exact I.
      + destruct (k_on _); exact I.
    - unfold forward_flag. destruct (takes_part P w); [|apply H]. unfold exchange, local_if, recv_link, send_link.
      destruct (k_on (fwd_lrecv _)), (k_on (fwd_rrecv _)), (k_on (fwd_lsend _)), (k_on (fwd_rsend _)); cbn [acts_run fpack set_l set_r h_t]; apply H.
  Qed.

  Lemma flag_result pre x (S0 : Z -> @hst Zring) w : clean (last (h_hist (sync_rounds (history_flag pre x) S0 w)) (flag_of 1)).
  Proof.
    unfold history_flag, sync_rounds. rewrite fold_left_app. generalize (fold_left (fun s rd => sync1 rd s) (flat_map (call_flag 1) pre) S0). intros S1.
    cbn [call_flag app fold_left]. rewrite fold_left_app. cbn [fold_left].
    match goal with |- context [fold_left ?f ?l ?s] => set (S3 := fold_left f l s) end.
    assert (K : forall w, clean (h_t (S3 w))).
    { unfold S3. assert (G : forall l S4, (forall w, clean (h_t (S4 w))) -> forall w, clean (h_t (fold_left (fun s rd => sync1 rd s) (map forward_flag l) S4 w))).
      { induction l as [|i l IH]; intros S4 H4; [exact H4|]. cbn [map fold_left]. apply IH. now apply flag_round. }
      apply G. intros u. reflexivity. }
    unfold sync1 at 1. cbn [store_round unpack_all acts_run h_hist]. rewrite last_app. apply K.
  Qed.
End Forward.

Section Result.
  Context {R : CRing}.
  Variable add : R -> R -> R.
  Variables (world : list Z) (P : part) (L : layout) (H : halos).
  Variables (shape : Z -> list Z) (recv send : Z -> list (Z * Z)).
  Hypothesis HG : halo_given world P L H.
  Hypothesis HPl : planned P L H shape recv send.

  Lemma flag_rounds_ok (pre : list (@call R)) x : Forall (round_ok world eqH steq) (history_flag P shape recv send pre x).
  Proof.
    pose proof HG as (G1 & G2 & G3 & G4 & G5 & G6).
    pose proof (given_shape P L H shape recv send HPl) as Q1.
    pose proof (given_recv P L H shape recv send HPl) as Q2.
    pose proof (given_send P L H shape recv send HPl) as Q3.
    assert (S1 : Forall (fun i => (i < length L)%nat) (seq 0 (length (p_shape P)))) by (exact (dims_ok world P L H HG)).
    rewrite Forall_forall in S1.
    assert (Fl : forall i, (i < length L)%nat -> round_ok world eqH steq (forward_flag P shape recv send i)).
    { intros i Hi. destruct (pairs P L H G3 G5 G6 shape recv send Q1 Q2 Q3 world G2 i Hi) as (P1 & P2 & P3 & P4 & _).
      apply (link_round_ok world fpack ffwd (takes_part P) (fun v => fwd_lrecv (D P shape recv send i v))
        (fun v => fwd_rrecv (D P shape recv send i v)) (fun v => fwd_lsend (D P shape recv send i v)) (fun v => fwd_rsend (D P shape recv send i v))); auto.
      - intros sl s s' []. constructor; simpl; auto.
      - intros sl s s' []. constructor; simpl; auto.
      - intros sl m m' t t' [E1 E2] [E3 E4]. split; [reflexivity|]. intros j. unfold ffwd, both. cbn. now rewrite E2, E4.
      - intros v m m' t _ _. split; [reflexivity|]. intros j. unfold ffwd, both. cbn.
        destruct (tat m [] =? 0), (tat m' [] =? 0), (tat t [] =? 0); reflexivity. }
    assert (Bl : forall i, (i < length L)%nat -> round_ok world eqH steq (backward_flag P shape recv send i)).
    { intros i Hi. destruct (pairs P L H G3 G5 G6 shape recv send Q1 Q2 Q3 world G2 i Hi) as (_ & _ & _ & _ & P1 & P2 & P3 & P4).
      apply (link_round_ok world fpack fbwd (takes_part P) (fun v => bwd_lrecv (D P shape recv send i v))
        (fun v => bwd_rrecv (D P shape recv send i v)) (fun v => bwd_lsend (D P shape recv send i v)) (fun v => bwd_rsend (D P shape recv send i v))); auto.
      - intros sl s s' []. constructor; simpl; auto.
      - intros sl s s' []. constructor; simpl; auto.
      - intros. reflexivity.
      - intros. reflexivity. }
    assert (C : forall z (c : @call R), Forall (round_ok world eqH steq) (call_flag P shape recv send z c)).
    { intros z c. destruct c as [y|y]; cbn [call_flag app]; (constructor; [apply (load_ok (R := Zring) world)|]); apply Forall_app;
        (split; [|constructor; [apply (store_ok (R := Zring) world)|constructor]]); apply Forall_forall; intros r Hr; apply in_map_iff in Hr as (i & <- & Hi).
      - apply Fl. auto.
      - apply Bl. apply in_rev in Hi. auto. }
    unfold history_flag. apply Forall_app. split; [|apply C]. induction pre; cbn [flat_map]; [constructor|]. apply Forall_app. split; auto.
  Qed.

  (** The results of a forward pass are those of a history computed in the ring. *)
  Lemma forward_after pre x init eager g :
    ends world (history_rounds_by P shape recv send add (pre ++ [HForward x])) init eager g ->
    exists g', ends world (history_rounds P shape recv send (pre ++ [HForward x])) init eager g' /\
      forall v, In v world -> steq (halo_result g v) (halo_result g' v).
  Proof.
    intros He. set (j := mkhst (flag_of 1) (flag_of 1) (flag_of 1) []).
    destruct (ends_rel s_agree m_agree world _ _ init (fun v => (init v, j)) eager g (history_agree P shape recv send add pre x)) as (g2 & He2 & R2); [|exact He|].
    { intros w. constructor; cbn; intros C; now apply not_clean in C. }
    destruct (ends_rel _ _ world _ _ (fun v => (init v, j)) init eager g2 (history_ring P shape recv send pre x) (fun _ => eq_refl) He2) as (g3 & He3 & R3).
    destruct (ends_rel _ _ world _ _ (fun v => (init v, j)) (fun _ => j) eager g2 (history_flags P shape recv send pre x) (fun _ => eq_refl) He2) as (g4 & He4 & R4).
    exists g3. split; [exact He3|]. intros v Hv.
    assert (A : async_ok world eqH (history_flag P shape recv send pre x) (fun _ => j)).
    { destruct HG as (G1 & _). apply (rounds_async world eqH steq); auto using flag_rounds_ok; [apply eqH_equiv|exact _]. }
    destruct He4 as (n & Hr4 & Hd4). pose proof (ao_result _ _ _ _ A eager n g4 v Hr4 Hd4 Hv) as [_ _ _ Eh].
    pose proof (wr_data _ _ _ _ (gr_w _ _ _ _ R2 v)) as S2. pose proof (wr_data _ _ _ _ (gr_w _ _ _ _ R3 v)) as S3. pose proof (wr_data _ _ _ _ (gr_w _ _ _ _ R4 v)) as S4.
    cbn beta in S3, S4. unfold halo_result. rewrite <- S3. apply (sa_hist _ _ S2). rewrite S4.
    pose proof (flag_result P shape recv send pre x (fun _ => j) v) as Fl.
    revert Eh Fl. generalize (h_hist (wdata (gw g4 v))) (h_hist (sync_rounds (history_flag P shape recv send pre x) (fun _ => j) v)).
    intros l l' F. induction F as [|a b [|a' l] [|b' l'] [E1 E2] F IH]; auto; try (inversion F; fail).
    cbn [last]. unfold clean. now rewrite E2.
  Qed.
End Result.
