(** Composition of layers, and the steps of training. *)

From Verif Require Import Prelude ModelPartition SpecIndex SpecLayout SpecPartition ProofSlicing ProofDecomposition ProofPartition
  Ring Tensor Blocks PropRepartition ModelBatchNorm ModelLoss PropLoss ModelTraining SpecTraining.

Section Choice.
  Context {R : CRing}.
  Variable world : list Z.

  Lemma returns_exists (F : Z -> result (tensor R)) : (forall v, In v world -> exists t, F v = Ok t) -> exists y, returns world F y.
  Proof.
    intros H. exists (fun v => match F v with Ok t => t | Raise _ => no_tensor end).
    intros v Hv. destruct (H v Hv) as [t ->]. reflexivity.
  Qed.
End Choice.

(** * The optimizer *)

Section Steps.
  Context {R : CRing}.
  Variable o : @optimizer R.

  Lemma opt_steps_nth k ps gs : (k < length ps)%nat ->
    nth k (opt_steps o ps gs) [] = match nth k gs None with Some d => opt_step o (nth k ps []) d | None => nth k ps [] end.
  Proof.
    revert ps gs. induction k as [|k IH]; intros [|s ps] [|g gs] H; cbn in *; try lia; auto.
    apply IH. lia.
  Qed.

  Lemma opt_step_length s (d : tensor R) : length (opt_step o s d) = length s.
  Proof. unfold opt_step. now rewrite map_length, seq_length. Qed.

  Lemma opt_step_shape s (d t : tensor R) : In t (opt_step o s d) -> tshape t = tshape (value_of s) /\ s <> [].
  Proof.
    unfold opt_step. intros H. apply in_map_iff in H as (m & <- & Hm). split; [reflexivity|].
    intros ->. apply in_seq in Hm. cbn in Hm. lia.
  Qed.

  Lemma opt_steps_nonneg ps gs : Forall (Forall (fun t : tensor R => nonneg_shape (tshape t) /\ tshape t <> [])) ps ->
    Forall (Forall (fun t => nonneg_shape (tshape t) /\ tshape t <> [])) (opt_steps o ps gs).
  Proof.
    intros H. revert gs. induction H as [|s ps Hs H IH]; intros [|g gs]; cbn; auto.
    constructor; auto. destruct g as [d|]; auto. apply Forall_forall. intros t Ht.
    apply opt_step_shape in Ht as [-> N]. destruct s as [|u s]; [congruence|]. inversion Hs; auto.
  Qed.

  Lemma opt_step_block L idx s S (d D : tensor R) :
    S <> [] -> Forall (fun T => tshape T = layout_shape L) S ->
    Forall2 (fun t T => teq t (block L idx T)) s S -> teq d (block L idx D) ->
    Forall2 (fun t T => teq t (block L idx T)) (opt_step o s d) (opt_step o S D).
  Proof.
    intros N HS HF [Hd1 Hd2]. unfold opt_step. rewrite (Forall2_length _ _ _ HF).
    assert (E : tshape (value_of s) = block_shape L idx).
    { destruct HF as [|t T s' S' [E _] _]; [congruence|]. exact E. }
    assert (Em : forall i, valid_index (block_shape L idx) i ->
               map (fun t : tensor R => tat t i) s = map (fun T : tensor R => tat T (vadd (block_lo L idx) i)) S).
    { intros i Hi. clear -HF Hi. induction HF as [|t T s' S' [E1 E2] HF IH]; [reflexivity|]. cbn. f_equal; [|exact IH].
      rewrite E2; [reflexivity|]. rewrite E1. exact Hi. }
    induction (seq 0 (length S)) as [|m l IH]; cbn [map]; constructor; [|exact IH].
    split; cbn; [exact E|]. intros i Hi. rewrite E in Hi. rewrite (Em i Hi), Hd2; [reflexivity|].
    rewrite Hd1. exact Hi.
  Qed.

  Lemma opt_step_shapes L S (D : tensor R) : Forall (fun T => tshape T = layout_shape L) S ->
    Forall (fun T => tshape T = layout_shape L) (opt_step o S D).
  Proof.
    intros HS. apply Forall_forall. intros t Ht. apply opt_step_shape in Ht as [-> N].
    destruct HS as [|T S E _]; [congruence|]. exact E.
  Qed.
End Steps.

(** The gradients of the parameters are held as the parameters are. *)
Definition grads_held {R : CRing} (world : list Z) (hs : list home) (Gs : list (tensor R)) (ga : Z -> list (option (tensor R))) : Prop :=
  length Gs = length hs /\
  forall k, (k < length hs)%nat ->
    let h := nth k hs no_home in
    tshape (nth k Gs no_tensor) = layout_shape (h_layout h) /\
    forall v idx, In v world -> h_at h v idx ->
      exists t, nth k (ga v) None = Some t /\ teq t (block (h_layout h) idx (nth k Gs no_tensor)).

Lemma map2_nth_lt {A B C} (f : A -> B -> C) da db dc k l l' : (k < length l)%nat -> length l' = length l ->
  nth k (map2 f l l') dc = f (nth k l da) (nth k l' db).
Proof.
  revert k l'. induction l as [|a l IH]; intros [|k] [|b l'] H E; cbn in *; try lia; auto.
  apply IH; lia.
Qed.

Lemma map2_len {A B C} (f : A -> B -> C) l l' : length l' = length l -> length (map2 f l l') = length l.
Proof. revert l'. induction l as [|a l IH]; intros [|b l'] E; cbn in *; try lia; auto. Qed.

Lemma step_held {R : CRing} world o hs Th th (Gs : list (tensor R)) ga :
  params_held world hs Th th -> grads_held world hs Gs ga ->
  params_held world hs (map2 (opt_step o) Th Gs) (fun v => opt_steps o (th v) (ga v)).
Proof.
  intros (E & H & HN) (E' & H'). split; [|split].
  - rewrite map2_len; congruence.
  - intros k Hk h S. subst S. rewrite (map2_nth_lt (opt_step o) [] no_tensor) by congruence.
    destruct (H k Hk) as (N & HS & HB). destruct (H' k Hk) as (_ & HG). fold h in HS, HB, HG. split; [|split].
    + intros Z. apply N. apply length_zero_iff_nil. rewrite <- (opt_step_length o _ (nth k Gs no_tensor)), Z. reflexivity.
    + now apply opt_step_shapes.
    + intros v idx Hv Hi. pose proof (HB v idx Hv Hi) as HF. destruct (HG v idx Hv Hi) as (d & Ed & Td).
      rewrite opt_steps_nth, Ed.
      * now apply opt_step_block.
      * destruct (Nat.lt_ge_cases k (length (th v))) as [?|Hge]; auto. exfalso.
        rewrite nth_overflow in HF by exact Hge. inversion HF. congruence.
  - intros v Hv. apply opt_steps_nonneg. auto.
Qed.

(** * Layers *)

(** The layer [y], whose inputs are at [p] and outputs at [p'], does what [q] does. *)
Definition sound {R : CRing} (world : list Z) (p : place) (y : @layer R) (q : @seq_layer R) (hs : list home) (p' : place) : Prop :=
  forall Th th X x, params_held world hs Th th -> held world p X x ->
    let ps := map value_of Th in
    (exists saved out, forward world y th x saved out) /\
    forall saved out, forward world y th x saved out ->
      held world p' (q_forward q ps X) out /\
      forall dY dy, held world p' dY dy ->
        (exists dx ga, backward world y th x saved dy dx ga) /\
        forall dx ga, backward world y th x saved dy dx ga ->
          held world p (q_back q ps X dY) dx /\ grads_held world hs (q_grads q ps X dY) ga.

Inductive all_grads {R : CRing} (world : list Z) : list (list home) -> list (list (tensor R)) -> list (@grads R) -> Prop :=
| all_grads_nil : all_grads world [] [] []
| all_grads_cons hs hss Gs Gss ga gas :
    grads_held world hs Gs ga -> all_grads world hss Gss gas -> all_grads world (hs :: hss) (Gs :: Gss) (ga :: gas).

Lemma steps_held {R : CRing} world o hss Ths ths (Gss : list (list (tensor R))) gas :
  all_held world hss Ths ths -> all_grads world hss Gss gas ->
  all_held world hss (map2 (map2 (opt_step o)) Ths Gss) (updated o ths gas).
Proof.
  intros H. revert Gss gas. induction H as [|hs hss Th Ths th ths Hp H IH]; intros Gss gas HG; inversion HG; subst.
  - constructor.
  - cbn. constructor; [|now apply IH]. now apply step_held.
Qed.

Section Passes.
  Context {R : CRing}.
  Variables (world : list Z) (A : arith R) (f df : R -> R -> R) (P : part) (kl : bool) (r : reduction) (dt : Z -> Z) (rg : Z -> bool).
  Variable L : layout.
  Hypothesis HP : part_ok P.
  Hypothesis HL : layout_ok L.
  Hypothesis HLP : layout_workers L = p_shape P.
  Hypothesis Hacc : accepts kl r = true.
  Hypothesis Hr : r <> RNone.
  Hypothesis Hsum : r = RSum -> unit_division A.
  Let last := mkplace P L.

  Lemma loss_passes X T x t (Q : (Z -> tensor R) -> list (@grads R) -> (Z -> tensor R) -> Prop) : held world last X x -> holds_blocks P L T t ->
    (forall dx l, held world last (sequential_gradient A df r X T rone) dx -> loss_held P (sequential_loss A f r X T) l -> Q dx [] l) ->
    (exists l dx, loss_pass world A f df P kl r dt rg x t l dx) /\
    forall l dx, loss_pass world A f df P kl r dt rg x t l dx -> Q dx [] l.
  Proof.
    intros [HX HO] HT HQ. assert (Hmean : r = RBatchMean -> p_shape P <> []) by (intros _; apply HP). cbn [last pl_part pl_layout] in *.
    assert (HD : loss_data P L X T x t) by exact (conj HP (conj HL (conj HLP (conj HX HT)))).
    destruct (C35_proof R A f P kl r dt rg L X T x t HD Hacc Hsum Hmean) as [F _]. destruct (F Hr) as [F1 F2]. clear F.
    set (one := fun _ : Z => @mkt R [] (fun _ => rone)).
    destruct (C46_proof R A f df P kl r dt rg L X T x t one HD Hacc Hsum Hmean) as [B _]. specialize (B Hr). cbn [one tat] in B.
    split.
    - exists (fun v => match loss_forward A f P kl r dt rg x t v with Ok t => t | Raise _ => no_tensor end).
      exists (fun v => if in_dec Z.eq_dec v (p_ranks P)
                       then match loss_backward A f df P kl r dt rg x t one v with Ok t => t | Raise _ => no_tensor end else no_tensor).
      split.
      + intros v Hv. split.
        * destruct (Z.eq_dec v (nth 0 (p_ranks P) 0)) as [->|Hn].
          -- destruct F1 as (l & -> & _). reflexivity.
          -- destruct (F2 v Hv Hn) as (l & -> & _). reflexivity.
        * destruct (in_dec Z.eq_dec v (p_ranks P)); [|contradiction].
          destruct (worker_at_exists P v HP Hv) as [idx Hi]. destruct (B idx v Hi) as (dx & Edx & _).
          fold one. now rewrite Edx.
      + intros v _ Hn. destruct (in_dec Z.eq_dec v (p_ranks P)); [contradiction|]. cbn.
        split; [|discriminate]. constructor; [lia|constructor].
    - intros l dx (H1 & H2). apply HQ.
      + split; cbn [last pl_part pl_layout]; [|exact H2]. split; [exact (proj1 HX)|].
        intros idx v Hi. destruct (B idx v Hi) as (d & Ed & Td).
        destruct (H1 v (worker_at_In _ _ _ Hi)) as [_ E2]. fold one in E2. rewrite Ed in E2. injection E2 as E2. rewrite <- E2. exact Td.
      + assert (Hroot : In (nth 0 (p_ranks P) 0) (p_ranks P)).
        { apply nth_In. pose proof (part_ok_nonempty P HP). destruct (p_ranks P); [congruence|cbn; lia]. }
        destruct (H1 _ Hroot) as [E1 _]. destruct F1 as (l' & E & S1 & S2). rewrite E in E1. injection E1 as E1. split; cbv zeta; congruence.
  Qed.

  Lemma net_passes p net qs hss : linked (sound world) p net qs hss last ->
    forall Ths ths X x T t (Q : (Z -> tensor R) -> list (@grads R) -> (Z -> tensor R) -> Prop), all_held world hss Ths ths -> held world p X x -> holds_blocks P L T t ->
    (let '(l0, dX, Gss) := seq_pass A f df r qs Ths X T in
     forall dx gas l, held world p dX dx -> all_grads world hss Gss gas -> loss_held P l0 l -> Q dx gas l) ->
    every_pass world A f df P kl r dt rg net ths x t Q.
  Proof.
    intros H. remember last as p'. revert Heqp'.
    induction H as [p0|p0 y q hs p1 net qs hss p2 Hs Hn IH]; intros ->; intros Ths ths X x T t Q HA HX HT HQ.
    - inversion HA; subst. cbn [seq_pass every_pass] in *. apply (loss_passes X T); auto.
      intros dx l Hd Hl. apply HQ; auto. constructor.
    - inversion HA as [|? ? Th Ths' th ths' Hp Ha]; subst. cbn [seq_pass every_pass] in *.
      destruct (Hs Th th X x Hp HX) as [HE HF]. split; [exact HE|].
      intros saved out Hf. destruct (HF saved out Hf) as [HY HB].
      destruct (seq_pass A f df r qs Ths' (q_forward q (map value_of Th) X) T) as [[l0 dY] Gss] eqn:E.
      apply (IH eq_refl Ths' ths' (q_forward q (map value_of Th) X) out T t); auto. rewrite E.
      intros dout gas l Hdo Hga Hl. destruct (HB dY dout Hdo) as [HE' HB']. split; [exact HE'|].
      intros dx ga Hb. destruct (HB' dx ga Hb) as [Hdx Hg]. apply HQ; auto. now constructor.
  Qed.

  Variable o : @optimizer R.

  Lemma training_held p net qs hss : linked (sound world) p net qs hss last ->
    forall data sdata Ths ths (Q : list (Z -> list (@slots R)) -> list (Z -> tensor R) -> Prop), all_held world hss Ths ths ->
    Forall2 (fun D d => held world p (fst D) (fst d) /\ holds_blocks P L (snd D) (snd d)) sdata data ->
    (let '(Ths', ls) := seq_training A f df r o qs Ths sdata in
     forall ths' losses, all_held world hss Ths' ths' -> Forall2 (loss_held P) ls losses -> Q ths' losses) ->
    every_training world A f df P kl r dt rg o net ths data Q.
  Proof.
    intros HN data sdata Ths ths Q HA HD. revert Ths ths Q HA.
    induction HD as [|[X T] [x t] sdata data [HX HT] HD IH]; intros Ths ths Q HA HQ.
    - cbn in *. apply HQ; auto.
    - cbn [seq_training every_training fst snd] in *.
      pose proof (net_passes p net qs hss HN Ths ths X x T t) as NP.
      destruct (seq_pass A f df r qs Ths X T) as [[l0 dX] Gss] eqn:E.
      apply NP; auto. intros dx gas l _ Hg Hl.
      apply (IH (map2 (map2 (opt_step o)) Ths Gss)); [now apply steps_held|].
      destruct (seq_training A f df r o qs (map2 (map2 (opt_step o)) Ths Gss) sdata) as [Ths' ls].
      intros ths' losses H1 H2. apply HQ; auto.
  Qed.
End Passes.
