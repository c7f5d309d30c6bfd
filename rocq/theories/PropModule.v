(** C38: a layer's stored plan always belongs to the current input.
    C39: whether all workers agree on when to rebuild. *)

From Verif Require Import Prelude ModelPartition ModelCollectives ModelModule.

(** C38, in terms of what an observer sees.  Histories start from a newly
    constructed layer; calls may fail at any place where the code may raise. *)

(** The events of call number [n]. *)
Definition nth_call (k : layer) (w : role) (l : list (tstruct * option nat)) (n : nat) (ev : list event)
  : Prop := nth_error (history k w l initial) n = Some ev.

(** Call [n] of the history received an input of structure [s]. *)
Definition nth_input (l : list (tstruct * option nat)) (n : nat) (s : tstruct) : Prop :=
  exists f, nth_error l n = Some (s, f).

(** Batch normalisation recomputes its global shape on every call, see
    [C38_batchnorm_refuted]. *)
Definition keeps_plan (k : layer) : Prop := k <> LBatchNorm.

Definition C38_statement : Prop :=
  forall (k : layer) (w : role) (l : list (tstruct * option nat)),
    (* whenever forward completes, everything it read was built for the structure
       of the current input *)
    (forall n s ev r,
        nth_input l n s -> nth_call k w l n ev -> In (EForward r) ev ->
        forall a o, In (a, o) r -> o = Some s) /\
    (* a plan that has been used is torn down before anything new is stored *)
    (keeps_plan k ->
     forall a b c r x, concat (history k w l initial) = a ++ EForward r :: b ++ ESave x :: c ->
       In ETeardown b) /\
    (* a change of the structure after a completed call tears the plan down first *)
    (keeps_plan k ->
     forall n s s' ev ev' r,
       nth_input l n s -> nth_input l (S n) s' -> s <> s' ->
       nth_call k w l n ev -> In (EForward r) ev -> r <> [] ->
       nth_call k w l (S n) ev' ->
       exists rest, ev' = EInput s' :: ETeardown :: rest) /\
    (* an unchanged structure after a completed call rebuilds nothing and reads
       the same plan *)
    (keeps_plan k ->
     forall n s ev ev' r,
       nth_input l n s -> nth_input l (S n) s ->
       nth_call k w l n ev -> In (EForward r) ev ->
       nth_call k w l (S n) ev' -> ev' = [EInput s; EForward r]).

(** ** The shape of the setups *)

Fixpoint saved (l : list step) : list slot :=
  match l with
  | [] => []
  | Save a :: r => a :: saved r
  | _ :: r => saved r
  end.

Definition quiet (l : list step) : Prop := ~ In Flag l /\ ~ In Remember l.
Definition certain (l : list step) : Prop := ~ In Risk l.

(** Setups that mark the layer last, first, or do nothing at all. *)
Inductive kind (l : list step) (rd cl : list slot) : Prop :=
| KLast pre : l = pre ++ mark -> quiet pre -> incl rd (saved pre) -> kind l rd cl
| KNone : l = [] -> rd = [] -> kind l rd cl
| KFirst : l = mark -> rd = [] -> kind l rd cl
| KFirstPlan pre fin a : l = mark ++ pre ++ fin -> quiet pre -> quiet fin -> certain fin ->
    incl rd (saved pre ++ saved fin) -> In a rd -> strict a = true -> In a cl -> ~ In a (saved pre) ->
    kind l rd cl.

Ltac notin := let H := fresh in intros H; cbn in H; intuition discriminate.
Ltac inclt := let x := fresh in let H := fresh in
  intros x H; cbn in H |- *; intuition (subst; auto 10).

Lemma setup_kind k w : keeps_plan k ->
  kind (setup_steps k w) (forward_reads k w) (teardown_slots k).
Proof.
  intros Hk. destruct w as [x y z o m].
  destruct k; try (exfalso; apply Hk; reflexivity).
  - destruct x, y.
    + apply (KFirstPlan _ _ _ [Save SInput; Risk; Save SGlobal; Save SOutput; Risk; Save SOverXY; Risk;
                               Save SOverYX; Risk] [Save SBufXY; Save SBufYX] SBufXY);
        try reflexivity; try (split; notin); try notin; try inclt; cbn; tauto.
    + apply (KFirstPlan _ _ _ [Save SInput; Risk; Save SGlobal; Risk; Save SOverXY; Risk]
               [Save SBufXY; Save SBufYX] SBufXY);
        try reflexivity; try (split; notin); try notin; try inclt; cbn; tauto.
    + apply (KFirstPlan _ _ _ [Save SInput; Risk; Save SGlobal; Save SOutput; Risk;
                               Save SOverYX; Risk] [Save SBufXY; Save SBufYX] SBufYX);
        try reflexivity; try (split; notin); try notin; try inclt; cbn; tauto.
    + apply KFirst; reflexivity.
  - destruct x, y, o;
      solve [apply KNone; reflexivity
            |apply (KLast _ _ _ []); [reflexivity|split; notin|inclt]
            |apply (KLast _ _ _ [Risk; Save SPartitions; Save SInput; Risk; Save SOutput]);
             [reflexivity|split; notin|inclt]].
  - destruct x, y, o;
      solve [apply KNone; reflexivity
            |apply (KLast _ _ _ []); [reflexivity|split; notin|inclt]
            |apply (KLast _ _ _ [Risk; Save SPartitions; Save SInput; Risk; Save SOutput]);
             [reflexivity|split; notin|inclt]].
  - destruct x, o;
      solve [apply KNone; reflexivity
            |apply (KLast _ _ _ []); [reflexivity|split; notin|inclt]
            |apply (KLast _ _ _ [Risk; Save SPartitions; Save SInput; Save SOutput]);
             [reflexivity|split; notin|inclt]].
  - destruct x;
      solve [apply (KLast _ _ _ []); [reflexivity|split; notin|inclt]
            |apply (KLast _ _ _ [Save SSlices; Risk; Save SBuffers]);
             [reflexivity|split; notin|inclt]].
  - destruct x; [|apply KFirst; reflexivity].
    apply (KFirstPlan _ _ _ [Risk; Save SHaloShape; Risk] [Save SHaloLayer; Save SNeeded] SHaloLayer);
      try reflexivity; try (split; notin); try notin; try inclt; cbn; tauto.
  - destruct x, o; try (apply KFirst; reflexivity).
    apply (KFirstPlan _ _ _ [Risk; Save SHaloShape; Risk] [Save SHaloLayer; Save SNeeded] SHaloLayer);
      try reflexivity; try (split; notin); try notin; try inclt; cbn; tauto.
  - destruct x, y, z, o;
      solve [apply KNone; reflexivity
            |apply (KLast _ _ _ []); [reflexivity|split; notin|inclt]].
  - destruct x, y, z, o;
      solve [apply KNone; reflexivity
            |apply (KLast _ _ _ [Risk]); [reflexivity|split; notin|inclt]
            |apply (KLast _ _ _ [Risk; Risk; Save SHaloShape; Risk; Save SHaloLayer; Save SNeeded]);
             [reflexivity|split; notin|inclt]].
  - destruct x; [|apply KFirst; reflexivity].
    apply (KFirstPlan _ _ _ [Risk; Save SHaloShape; Risk] [Save SHaloLayer; Save SNeeded; Save SInterp]
             SHaloLayer);
      try reflexivity; try (split; notin); try notin; try inclt; cbn; tauto.
  - destruct x, m;
      solve [apply KNone; reflexivity
            |apply (KLast _ _ _ []); [reflexivity|split; notin|inclt]
            |apply (KLast _ _ _ [Risk; Save SFactor]); [reflexivity|split; notin|inclt]].
Qed.

(** ** Running the statements *)

Lemma slot_eqb_eq a b : slot_eqb a b = true <-> a = b.
Proof. split; [destruct a, b; cbn; congruence|intros ->; destruct b; reflexivity]. Qed.

Lemma put_same p a o : put p a o a = o.
Proof. unfold put. replace (slot_eqb a a) with true; [reflexivity|]. symmetry. apply slot_eqb_eq. reflexivity. Qed.

Lemma put_other p a b o : a <> b -> put p a o b = p b.
Proof.
  intros H. unfold put. destruct (slot_eqb a b) eqn:E; [|reflexivity].
  apply slot_eqb_eq in E. contradiction.
Qed.

Lemma slot_dec (a b : slot) : {a = b} + {a <> b}.
Proof. decide equality. Defined.

Definition is_save (e : event) : bool := match e with ESave _ => true | _ => false end.

Lemma run_events s l : forall f st, forallb is_save (snd (fst (run_steps s l f st))) = true.
Proof.
  induction l as [|x l IH]; intros f st; [reflexivity|].
  destruct x as [| |a|]; cbn [run_steps]; try apply IH.
  - specialize (IH f (mkm (m_flag st) (m_struct st) (put (m_plan st) a (Some s)))).
    destruct (run_steps s l f _) as [[st' ev] e]. cbn in IH |- *. exact IH.
  - destruct f as [[|n]|]; try apply IH. reflexivity.
Qed.

Lemma run_no_save s l : saved l = [] -> forall f st, snd (fst (run_steps s l f st)) = [].
Proof.
  induction l as [|x l IH]; intros H f st; [reflexivity|].
  destruct x as [| |a|]; cbn [run_steps saved] in *; try (apply IH; exact H); try discriminate.
  destruct f as [[|n]|]; try (apply IH; exact H). reflexivity.
Qed.

(** A part of a setup that does not mark the layer. *)
Lemma run_quiet s l : quiet l -> forall r f st,
  exists p, (exists ev f', run_steps s (l ++ r) f st =
     (let '(st', ev', e) := run_steps s r f' (mkm (m_flag st) (m_struct st) p) in (st', ev ++ ev', e)) /\
     (forall a, In a (saved l) -> p a = Some s) /\ (forall a, ~ In a (saved l) -> p a = m_plan st a))
  \/ (exists ev, run_steps s (l ++ r) f st = (mkm (m_flag st) (m_struct st) p, ev, true) /\ ~ certain l /\
      (forall a, ~ In a (saved l) -> p a = m_plan st a)).
Proof.
  induction l as [|x l IH]; intros [Q1 Q2] r f st.
  - exists (m_plan st). left. exists [], f. destruct st as [g c p]. cbn [app m_flag m_struct m_plan].
    destruct (run_steps s r f (mkm g c p)) as [[st' ev] e].
    split; [reflexivity|]. split; [intros a []|reflexivity].
  - assert (Q : quiet l) by (split; intros I; [apply Q1|apply Q2]; right; exact I).
    destruct x as [| |a|].
    + exfalso. apply Q1. left. reflexivity.
    + exfalso. apply Q2. left. reflexivity.
    + cbn [app run_steps saved].
      destruct (IH Q r f (mkm (m_flag st) (m_struct st) (put (m_plan st) a (Some s)))) as (p & HP).
      exists p. cbn [m_flag m_struct m_plan] in HP.
      destruct HP as [(ev & f' & E & S1 & S2)|(ev & E & NC & S2)].
      * left. exists (ESave a :: ev), f'. rewrite E.
        destruct (run_steps s r f' _) as [[st' ev'] e].
        split; [reflexivity|]. split.
        -- intros b [<-|I]; [|apply S1; exact I].
           destruct (in_dec slot_dec a (saved l)) as [I|I].
           ++ apply S1. exact I.
           ++ rewrite S2 by exact I. apply put_same.
        -- intros b I. rewrite S2 by (intros J; apply I; right; exact J).
           apply put_other. intros ->. apply I. left. reflexivity.
      * right. exists (ESave a :: ev). rewrite E. split; [reflexivity|]. split.
        -- intros C. apply NC. intros I. apply C. right. exact I.
        -- intros b I. rewrite S2 by (intros J; apply I; right; exact J).
           apply put_other. intros ->. apply I. left. reflexivity.
    + cbn [app run_steps saved].
      assert (NC : ~ certain (Risk :: l)) by (intros C; apply C; left; reflexivity).
      destruct f as [[|n]|].
      * exists (m_plan st). right. exists []. destruct st as [g c p].
        split; [reflexivity|]. split; [exact NC|reflexivity].
      * destruct (IH Q r (Some n) st) as (p & HP). exists p.
        destruct HP as [HP|(ev & E & _ & S2)]; [left; exact HP|right].
        exists ev. split; [exact E|]. split; [exact NC|exact S2].
      * destruct (IH Q r None st) as (p & HP). exists p.
        destruct HP as [HP|(ev & E & _ & S2)]; [left; exact HP|right].
        exists ev. split; [exact E|]. split; [exact NC|exact S2].
Qed.

(** ** The invariant *)

(** Every attribute [forward] reads was built for [s]. *)
Definition built (rd : list slot) (p : slot -> option tstruct) (s : tstruct) : Prop :=
  forall a, In a rd -> p a = Some s.

(** [forward] raises. *)
Definition stuck (rd : list slot) (p : slot -> option tstruct) : Prop :=
  exists a, In a rd /\ strict a = true /\ p a = None.

Definition sound (k : layer) (w : role) (st : mstate) : Prop :=
  match k with
  | LBatchNorm => m_flag st = false
  | _ =>
    match m_flag st with
    | true => exists s, m_struct st = Some s /\ setup_steps k w <> [] /\
                (built (forward_reads k w) (m_plan st) s \/ stuck (forward_reads k w) (m_plan st))
    | false =>
        (exists pre, setup_steps k w = pre ++ mark /\ quiet pre) \/ setup_steps k w = [] \/
        setup_steps k w = mark \/
        (forall a, In a (teardown_slots k) -> m_plan st a = None)
    end
  end.

Lemma read_stuck rd p : stuck rd p -> read_plan rd p = None.
Proof.
  intros (a & I & S & N). induction rd as [|b rd IH]; [destruct I|].
  cbn [read_plan]. destruct I as [<-|I].
  - rewrite S, N. reflexivity.
  - destruct (strict b && _); [reflexivity|]. rewrite IH by exact I. reflexivity.
Qed.

Lemma read_some rd p r : read_plan rd p = Some r -> r = map (fun a => (a, p a)) rd.
Proof.
  revert r. induction rd as [|b rd IH]; intros r; cbn [read_plan map].
  - intros H. inv H. reflexivity.
  - destruct (strict b && _); [discriminate|].
    destruct (read_plan rd p) as [r'|]; [|discriminate].
    cbn. intros H. inv H. rewrite <- (IH r' eq_refl). reflexivity.
Qed.

Lemma clear_plan l : forall p a,
  fold_left (fun q b => put q b None) l p a = if in_dec slot_dec a l
                                             then None else p a.
Proof.
  induction l as [|b l IH]; intros p a; [reflexivity|].
  cbn [fold_left]. rewrite IH.
  destruct (in_dec _ a l) as [I|I]; destruct (in_dec _ a (b :: l)) as [J|J]; try reflexivity.
  - exfalso. apply J. right. exact I.
  - destruct J as [->|J]; [apply put_same|contradiction].
  - apply put_other. intros ->. apply J. left. reflexivity.
Qed.

Lemma sound_kept k w : keeps_plan k -> forall st,
  sound k w st <->
  match m_flag st with
    | true => exists s, m_struct st = Some s /\ setup_steps k w <> [] /\
                (built (forward_reads k w) (m_plan st) s \/ stuck (forward_reads k w) (m_plan st))
    | false =>
        (exists pre, setup_steps k w = pre ++ mark /\ quiet pre) \/ setup_steps k w = [] \/
        setup_steps k w = mark \/
        (forall a, In a (teardown_slots k) -> m_plan st a = None)
  end.
Proof. intros H st. destruct k; try reflexivity. exfalso. apply H. reflexivity. Qed.

Lemma teardown_sound k w st : keeps_plan k -> sound k w (teardown k st).
Proof.
  intros H. apply (sound_kept k w H).
  assert (T : teardown k st =
    mkm false None (fold_left (fun p a => put p a None) (teardown_slots k) (m_plan st))).
  { unfold teardown. destruct k; try reflexivity. exfalso. apply H. reflexivity. }
  rewrite T. cbn [m_flag m_plan]. right. right. right.
  intros a I. rewrite clear_plan. destruct (in_dec _ a _); [reflexivity|contradiction].
Qed.

Lemma initial_sound k w : sound k w initial.
Proof. destruct k; cbn; try reflexivity; right; right; right; reflexivity. Qed.

(** A setup that starts with the flag down: either it raises, leaving a sound
    state, or it leaves a plan for exactly its input. *)
Lemma setup_spec k w s f st : keeps_plan k -> sound k w st -> m_flag st = false ->
  let '(st', ev, e) := run_steps s (setup_steps k w) f st in
  sound k w st' /\
  (e = false ->
     built (forward_reads k w) (m_plan st') s /\
     ((m_flag st' = true /\ m_struct st' = Some s) \/ (st' = st /\ setup_steps k w = [] /\ ev = []))).
Proof.
  intros Hk HS HF. rewrite (sound_kept k w Hk) in HS. rewrite HF in HS.
  destruct (setup_kind k w Hk) as [pre E Q I | E R | E R | pre fin a E Q1 Q2 C I IA SA CA NA].
  - rewrite E. destruct (run_quiet s pre Q mark f st) as (p & [(ev & f' & R & S1 & S2)|(ev & R & _ & S2)]).
    + rewrite R. cbn [mark run_steps m_flag m_struct m_plan]. split.
      * apply (sound_kept k w Hk). cbn [m_flag m_struct m_plan]. exists s. split; [reflexivity|].
        split; [rewrite E; destruct pre; discriminate|]. left. intros b J. apply S1, I, J.
      * intros _. cbn [m_flag m_struct m_plan]. split; [intros b J; apply S1, I, J|]. left. auto.
    + rewrite R. split; [|discriminate].
      apply (sound_kept k w Hk). cbn [m_flag m_struct m_plan]. rewrite HF.
      left. exists pre. auto.
  - rewrite E. cbn [run_steps]. split.
    + apply (sound_kept k w Hk). rewrite HF. exact HS.
    + intros _. rewrite R. split; [intros b []|]. right. auto.
  - rewrite E. cbn [mark run_steps m_flag m_struct m_plan]. split.
    + apply (sound_kept k w Hk). cbn [m_flag m_struct m_plan]. exists s. split; [reflexivity|].
      split; [rewrite E; discriminate|]. left. rewrite R. intros b [].
    + intros _. cbn [m_flag m_struct m_plan]. rewrite R. split; [intros b []|]. left. auto.
  - assert (CL : forall b, In b (teardown_slots k) -> m_plan st b = None).
    { destruct HS as [(pre' & E' & Q')|[E'|[E'|HS]]].
      - exfalso. rewrite E' in E. destruct Q' as [Q' _]. destruct pre' as [|x pre'].
        + destruct pre as [|y pre]; [destruct fin as [|z fin]; [|discriminate]|discriminate].
          assert (J : In a (saved [] ++ saved [])) by (apply I, IA). destruct J.
        + cbn [mark app] in E. injection E as E0 _. apply Q'. left. exact E0.
      - rewrite E' in E. discriminate.
      - rewrite E' in E. destruct pre as [|y pre]; [destruct fin as [|z fin]; [|discriminate]|discriminate].
        assert (J : In a (saved [] ++ saved [])) by (apply I, IA). destruct J.
      - exact HS. }
    rewrite E. cbn [mark app run_steps m_flag m_struct m_plan].
    destruct (run_quiet s pre Q1 fin f (mkm true (Some s) (m_plan st)))
      as (p & [(ev & f' & R & S1 & S2)|(ev & R & _ & S2)]).
    + rewrite R. cbn [m_flag m_struct m_plan] in *.
      destruct (run_quiet s fin Q2 [] f' (mkm true (Some s) p))
        as (p' & [(ev' & f'' & R' & S1' & S2')|(ev' & R' & NC & _)]); [|contradiction].
      rewrite app_nil_r in R'. rewrite R'. cbn [run_steps m_flag m_struct m_plan] in *.
      assert (B : built (forward_reads k w) p' s).
      { intros b J. apply I in J. apply in_app_or in J.
        destruct (in_dec slot_dec b (saved fin)) as [K|K].
        - apply S1', K.
        - rewrite S2' by exact K. apply S1. tauto. }
      split.
      * apply (sound_kept k w Hk). cbn [m_flag m_struct m_plan]. exists s.
        split; [reflexivity|]. split; [rewrite E; discriminate|auto].
      * intros _. split; [exact B|]. left. auto.
    + rewrite R. cbn [m_flag m_struct m_plan] in *. split; [|discriminate].
      apply (sound_kept k w Hk). cbn [m_flag m_struct m_plan]. exists s. split; [reflexivity|].
      split; [rewrite E; discriminate|]. right. exists a. split; [exact IA|]. split; [exact SA|].
      rewrite S2 by exact NA. apply CL, CA.
Qed.

(** ** One call *)

Lemma struct_eqb_eq a b : struct_eqb a b = true <-> a = b.
Proof.
  unfold struct_eqb. rewrite !andb_true_iff. destruct a as [x d r], b as [x' d' r']. cbn.
  rewrite zlist_eqb_eq, Z.eqb_eq, Bool.eqb_true_iff. split.
  - intros [[-> ->] ->]. reflexivity.
  - intros H. inv H. auto.
Qed.

(** What is left behind by a call that completed with input [s]. *)
Definition done (k : layer) (w : role) (st : mstate) (s : tstruct) : Prop :=
  built (forward_reads k w) (m_plan st) s /\
  ((m_flag st = true /\ m_struct st = Some s) \/ setup_steps k w = []).

Lemma no_steps_reads k w : keeps_plan k -> setup_steps k w = [] -> forward_reads k w = [].
Proof.
  intros Hk E. destruct (setup_kind k w Hk) as [pre E' _ _|_ R|_ R|pre fin a E' _ _ _ _ _ _ _ _]; auto.
  - rewrite E in E'. destruct pre; discriminate.
  - rewrite E in E'. discriminate.
Qed.

Lemma hook_spec k w s f st : keeps_plan k -> sound k w st ->
  let '(st', ev, e) := pre_hook k w s f st in
  sound k w st' /\
  (e = false -> forall r, read_plan (forward_reads k w) (m_plan st') = Some r -> done k w st' s) /\
  (forall s0, done k w st s0 ->
     (s0 = s -> ev = [] /\ e = false /\ m_plan st' = m_plan st) /\
     (s0 <> s -> ev = [] /\ setup_steps k w = [] \/ exists ev', ev = ETeardown :: ev')) /\
  (m_flag st = true -> ev = [] \/ exists ev', ev = ETeardown :: ev').
Proof.
  intros Hk HS. unfold pre_hook.
  assert (TR : tracks_input k = true) by (destruct k; try reflexivity; exfalso; apply Hk; reflexivity).
  destruct (requires_reset k st s) eqn:ER.
  - destruct (m_flag st) eqn:EF.
    + pose proof (setup_spec k w s f (teardown k st) Hk (teardown_sound k w st Hk)) as SP.
      assert (TF : m_flag (teardown k st) = false) by (unfold teardown; rewrite TR; reflexivity).
      specialize (SP TF). destruct (run_steps s (setup_steps k w) f (teardown k st)) as [[st' ev] e] eqn:RS.
      destruct SP as [S1 S2]. split; [exact S1|]. split; [|split].
      * intros He r _. destruct (S2 He) as [B D]. split; [exact B|].
        destruct D as [D|(_ & D & _)]; auto.
      * intros s0 [B D]. split.
        -- intros ->. unfold requires_reset, input_changed in ER. rewrite EF, TR in ER. cbn in ER.
           destruct D as [[_ D]|D].
           ++ rewrite D in ER. exfalso. assert (X : struct_eqb s s = true) by (apply struct_eqb_eq; reflexivity).
              rewrite X in ER. discriminate.
           ++ exfalso. assert (SK := HS). rewrite (sound_kept k w Hk), EF in SK.
              destruct SK as (c & _ & NE & _). contradiction.
        -- intros _. right. eauto.
      * intros _. right. eauto.
    + pose proof (setup_spec k w s f st Hk HS EF) as SP.
      destruct (run_steps s (setup_steps k w) f st) as [[st' ev] e] eqn:RS.
      destruct SP as [S1 S2]. split; [exact S1|]. split; [|split].
      * intros He r _. destruct (S2 He) as [B D]. split; [exact B|].
        destruct D as [D|(_ & D & _)]; auto.
      * intros s0 [B D]. destruct D as [[D _]|D]; [congruence|].
        rewrite D in RS. cbn in RS. inv RS. split; auto.
      * discriminate.
  - unfold requires_reset in ER. apply orb_false_iff in ER. destruct ER as [E1 E2].
    apply negb_false_iff in E1. unfold input_changed in E2. rewrite TR in E2. cbn in E2.
    destruct (m_struct st) as [c|] eqn:EC; [|discriminate].
    apply negb_false_iff, struct_eqb_eq in E2. subst c.
    split; [exact HS|]. split; [|split].
    + intros _ r HR. rewrite (sound_kept k w Hk), E1 in HS. destruct HS as (c & Ec & _ & [B|S]).
      * rewrite EC in Ec. inv Ec. split; [exact B|]. left. auto.
      * rewrite (read_stuck _ _ S) in HR. discriminate.
    + intros s0 [B D]. split; [auto|]. intros N. destruct D as [[_ D]|D]; [|auto].
      rewrite EC in D. inv D. contradiction.
    + auto.
Qed.

(** The events of a call other than the first and the last. *)
Lemma hook_events k w s f st :
  forall e, In e (snd (fst (pre_hook k w s f st))) -> e = ETeardown \/ is_save e = true.
Proof.
  intros e. unfold pre_hook. destruct (requires_reset k st s); [|intros []].
  pose proof (run_events s (setup_steps k w) f (teardown k st)) as R1.
  pose proof (run_events s (setup_steps k w) f st) as R2.
  rewrite forallb_forall in R1, R2.
  destruct (m_flag st).
  - destruct (run_steps s (setup_steps k w) f (teardown k st)) as [[st' ev] b].
    cbn in *. intros [<-|I]; auto.
  - intros I. auto.
Qed.

Lemma call_forward k w i st r : In (EForward r) (snd (call k w i st)) ->
  let '(st', ev, e) := pre_hook k w (fst i) (snd i) st in
  e = false /\ read_plan (forward_reads k w) (m_plan st') = Some r /\
  call k w i st = (st', EInput (fst i) :: ev ++ [EForward r]).
Proof.
  unfold call. pose proof (hook_events k w (fst i) (snd i) st) as HE.
  destruct (pre_hook k w (fst i) (snd i) st) as [[st' ev] e]. cbn [snd fst] in *.
  intros [H|H]; [discriminate|]. apply in_app_or in H. destruct H as [H|[H|[]]].
  - destruct (HE _ H) as [X|X]; discriminate.
  - destruct e; [discriminate|].
    destruct (read_plan (forward_reads k w) (m_plan st')) as [r'|]; [|discriminate].
    inv H. auto.
Qed.

Lemma call_sound k w i st : keeps_plan k -> sound k w st -> sound k w (fst (call k w i st)).
Proof.
  intros Hk HS. pose proof (hook_spec k w (fst i) (snd i) st Hk HS) as H. unfold call.
  destruct (pre_hook k w (fst i) (snd i) st) as [[st' ev] e]. cbn. tauto.
Qed.

Lemma call_done k w i st r : keeps_plan k -> sound k w st ->
  In (EForward r) (snd (call k w i st)) ->
  done k w (fst (call k w i st)) (fst i) /\
  r = map (fun a => (a, Some (fst i))) (forward_reads k w) /\
  r = map (fun a => (a, m_plan (fst (call k w i st)) a)) (forward_reads k w).
Proof.
  intros Hk HS HI. pose proof (call_forward k w i st r HI) as HC.
  pose proof (hook_spec k w (fst i) (snd i) st Hk HS) as H.
  destruct (pre_hook k w (fst i) (snd i) st) as [[st' ev] e].
  destruct HC as (He & HR & HC). destruct H as (_ & H & _).
  rewrite HC. cbn [fst]. specialize (H He r HR). pose proof (read_some _ _ _ HR) as ER.
  split; [exact H|]. split; [|exact ER]. rewrite ER. apply map_ext_in.
  intros a I. destruct H as [B _]. rewrite (B a I). reflexivity.
Qed.

Lemma history_cons k w i l st :
  history k w (i :: l) st = snd (call k w i st) :: history k w l (fst (call k w i st)).
Proof. cbn [history]. destruct (call k w i st). reflexivity. Qed.

(** Reaching call [n] of a history. *)
Lemma history_reach k w : keeps_plan k -> forall l n i st, sound k w st ->
  nth_error l n = Some i ->
  exists st', sound k w st' /\
    nth_error (history k w l st) n = Some (snd (call k w i st')) /\
    (forall i', nth_error l (S n) = Some i' ->
       nth_error (history k w l st) (S n) = Some (snd (call k w i' (fst (call k w i st'))))).
Proof.
  intros Hk. induction l as [|j l IH]; intros [|n] i st HS H; try discriminate.
  - cbn in H. inv H. exists st. split; [exact HS|]. rewrite history_cons. split; [reflexivity|].
    intros i' H'. cbn [nth_error] in *. destruct l as [|j' l]; [discriminate|]. cbn in H'. inv H'.
    rewrite history_cons. reflexivity.
  - cbn [nth_error] in H.
    destruct (IH n i (fst (call k w j st)) (call_sound k w j st Hk HS) H) as (st' & S' & E & E').
    exists st'. split; [exact S'|]. rewrite history_cons. split; [exact E|].
    intros i' H'. apply E'. exact H'.
Qed.

(** Batch normalisation builds its global shape in every call that completes. *)
Lemma batchnorm_call w : forall l n i st, m_flag st = false -> nth_error l n = Some i ->
  exists st', m_flag st' = false /\
    nth_error (history LBatchNorm w l st) n = Some (snd (call LBatchNorm w i st')).
Proof.
  induction l as [|j l IH]; intros [|n] i st HF H; try discriminate.
  - cbn in H. inv H. exists st. rewrite history_cons. auto.
  - cbn [nth_error] in H. rewrite history_cons. cbn [nth_error]. apply IH; [|exact H].
    unfold call, pre_hook, requires_reset. rewrite HF. cbn.
    destruct (snd j) as [[|m]|]; cbn; exact HF.
Qed.

(** The order of teardowns and builds: [dirty] tells whether a plan has been used
    since the last teardown. *)
Fixpoint scan (l : list event) (dirty : bool) : Prop :=
  match l with
  | [] => True
  | EForward _ :: r => scan r true
  | ETeardown :: r => scan r false
  | ESave _ :: r => dirty = false /\ scan r dirty
  | _ :: r => scan r dirty
  end.

Lemma scan_spec l : forall d, scan l d -> forall a b c r x,
  l = a ++ EForward r :: b ++ ESave x :: c -> In ETeardown b.
Proof.
  assert (L : forall b d c x, scan (b ++ ESave x :: c) d -> d = true -> In ETeardown b).
  { induction b as [|e b IH]; intros d c x H ->.
    - cbn in H. destruct H. discriminate.
    - destruct e; cbn in H; try (right; eapply IH; [exact H|reflexivity]).
      + left. reflexivity.
      + destruct H. discriminate. }
  intros d H a b c r x E. subst l. revert d H. induction a as [|e a IH]; intros d H.
  - cbn in H. eapply L; [exact H|reflexivity].
  - destruct e; cbn in H; try (eapply IH; exact H).
    destruct H as [_ H]. eapply IH; exact H.
Qed.

Lemma scan_mono l : forall d, scan l d -> scan l false.
Proof.
  induction l as [|e l IH]; intros d H; [exact I|].
  destruct e; cbn in *; try (eapply IH; exact H); try exact H.
  destruct H as [-> H]. auto.
Qed.

Lemma scan_saves ev : forallb is_save ev = true -> forall l, scan l false -> scan (ev ++ l) false.
Proof.
  induction ev as [|e ev IH]; intros H l HL; [exact HL|].
  cbn in H. apply andb_true_iff in H. destruct H as [H1 H2]. destruct e; try discriminate.
  cbn. split; [reflexivity|]. auto.
Qed.

(** A plan in use is on record: the flag is up, or nothing is ever stored. *)
Definition recorded (k : layer) (w : role) (st : mstate) : Prop :=
  m_flag st = true \/ setup_steps k w = [].

Lemma history_scan k w : keeps_plan k -> forall l st d, sound k w st ->
  (d = true -> recorded k w st) -> scan (concat (history k w l st)) d.
Proof.
  intros Hk. induction l as [|i l IH]; intros st d HS HD; [exact I|].
  rewrite history_cons. cbn [concat].
  pose proof (IH (fst (call k w i st))) as IHs. clear IH.
  specialize (IHs true (call_sound k w i st Hk HS)) as IHt.
  specialize (IHs false (call_sound k w i st Hk HS)) as IHf.
  clear IHs. assert (IHf' : scan (concat (history k w l (fst (call k w i st)))) false)
    by (apply IHf; discriminate). clear IHf.
  pose proof (hook_spec k w (fst i) (snd i) st Hk HS) as HK.
  assert (FW : forall r, In (EForward r) (snd (call k w i st)) ->
               recorded k w (fst (call k w i st))).
  { intros r HI. destruct (call_done k w i st r Hk HS HI) as ([_ D] & _). red. tauto. }
  revert FW IHt IHf'. unfold call.
  destruct (pre_hook k w (fst i) (snd i) st) as [[st' ev] e] eqn:EP. cbn [fst snd].
  intros FW IHt IHf'. destruct HK as (_ & _ & _ & HT).
  set (last := if e then EError else _) in *.
  assert (TAIL : forall d', (d' = true -> recorded k w st') ->
            scan ([last] ++ concat (history k w l st')) d').
  { intros d' Hd'. subst last. destruct e; cbn.
    - destruct d'; auto.
    - destruct (read_plan (forward_reads k w) (m_plan st')) as [r|]; cbn.
      + apply IHt. intros _. apply (FW r). right. apply in_or_app. right. left. reflexivity.
      + destruct d'; auto. }
  cbn [app scan]. rewrite <- app_assoc.
  (* the events of the hook *)
  unfold pre_hook in EP. destruct (requires_reset k st (fst i)).
  - destruct (m_flag st) eqn:EF.
    + pose proof (run_events (fst i) (setup_steps k w) (snd i) (teardown k st)) as RE.
      destruct (run_steps (fst i) (setup_steps k w) (snd i) (teardown k st)) as [[st1 ev1] e1].
      inv EP. cbn [app scan]. apply scan_saves; [exact RE|]. apply TAIL. discriminate.
    + pose proof (run_events (fst i) (setup_steps k w) (snd i) st) as RE.
      rewrite EP in RE. cbn [fst snd] in RE. destruct d.
      * destruct (HD eq_refl) as [X|X]; [congruence|].
        rewrite X in EP. cbn in EP. inv EP. cbn [app]. apply TAIL. intros _. right. exact X.
      * apply scan_saves; [exact RE|]. apply TAIL. discriminate.
  - inv EP. cbn [app]. apply TAIL. exact HD.
Qed.

Lemma layer_dec (a b : layer) : {a = b} + {a <> b}.
Proof. decide equality. Qed.

Lemma C38_proof : C38_statement.
Proof.
  intros k w l. split; [|split; [|split]].
  - intros n s ev r [f Hn] Hc HI a o Ha.
    destruct (layer_dec k LBatchNorm) as [->|Hk].
    + destruct (batchnorm_call w l n (s, f) initial eq_refl Hn) as (st' & HF & E).
      unfold nth_call in Hc. rewrite E in Hc. inv Hc.
      pose proof (call_forward LBatchNorm w (s, f) st' r HI) as HC.
      unfold pre_hook, requires_reset in HC. rewrite HF in HC. cbn in HC.
      destruct f as [[|m]|]; cbn in HC; destruct HC as (HE & HR & _); try discriminate;
        inv HR; destruct Ha as [Ha|[]]; inv Ha; reflexivity.
    + destruct (history_reach k w Hk l n (s, f) initial (initial_sound k w) Hn) as (st' & HS & E & _).
      unfold nth_call in Hc. rewrite E in Hc. inv Hc.
      destruct (call_done k w (s, f) st' r Hk HS HI) as (_ & ER & _).
      rewrite ER in Ha. apply in_map_iff in Ha. destruct Ha as (b & Hb & _). inv Hb. reflexivity.
  - intros Hk a b c r x E. eapply scan_spec; [|exact E].
    apply (history_scan k w Hk l initial false); [apply initial_sound|discriminate].
  - intros Hk n s s' ev ev' r [f Hn] [f' Hn'] NE Hc HI NR Hc'.
    destruct (history_reach k w Hk l n (s, f) initial (initial_sound k w) Hn) as (st' & HS & E & E').
    unfold nth_call in Hc, Hc'. rewrite E in Hc. rewrite (E' _ Hn') in Hc'. inv Hc. inv Hc'.
    destruct (call_done k w (s, f) st' r Hk HS HI) as (D & ER & _).
    pose proof (hook_spec k w s' f' (fst (call k w (s, f) st')) Hk (call_sound k w _ _ Hk HS)) as HK.
    unfold call at 1. cbn [fst snd].
    destruct (pre_hook k w s' f' (fst (call k w (s, f) st'))) as [[st2 ev2] e2].
    destruct HK as (_ & _ & HK & _). destruct (HK s D) as [_ HK2]. cbn [fst] in NE.
    destruct (HK2 NE) as [[_ X]|[ev3 ->]].
    + exfalso. apply NR. rewrite ER, (no_steps_reads k w Hk X). reflexivity.
    + cbn [snd]. cbn [app]. eauto.
  - intros Hk n s ev ev' r [f Hn] [f' Hn'] Hc HI Hc'.
    destruct (history_reach k w Hk l n (s, f) initial (initial_sound k w) Hn) as (st' & HS & E & E').
    unfold nth_call in Hc, Hc'. rewrite E in Hc. rewrite (E' _ Hn') in Hc'. inv Hc. inv Hc'.
    destruct (call_done k w (s, f) st' r Hk HS HI) as (D & _ & ER).
    pose proof (call_forward k w (s, f) st' r HI) as CF.
    pose proof (hook_spec k w s f' (fst (call k w (s, f) st')) Hk (call_sound k w _ _ Hk HS)) as HK.
    unfold call at 1. cbn [fst snd].
    destruct (pre_hook k w s f' (fst (call k w (s, f) st'))) as [[st2 ev2] e2].
    destruct HK as (_ & _ & HK & _). destruct (HK s D) as [HK1 _].
    destruct (HK1 eq_refl) as (-> & -> & EP). rewrite EP. cbn [app snd].
    cbn [fst snd] in CF. destruct (pre_hook k w s f st') as [[st1 ev1] e1].
    destruct CF as (_ & HR & HC). rewrite HC. cbn [fst]. rewrite HR. reflexivity.
Qed.

Theorem C38_plan_matches_input_partial : C38_statement.
Proof. exact C38_proof. Qed.

(** Two calls of a pooling layer with the same input, one with another, and one
    after a setup that raised. *)
Definition ex38_w : role := mkrole true true true false true.
Definition ex38_a : tstruct := mkst [1; 1; 10] 0 true.
Definition ex38_b : tstruct := mkst [1; 1; 11] 0 true.

Definition pool_reads (s : tstruct) : list (slot * option tstruct) :=
  [(SHaloShape, Some s); (SHaloLayer, Some s); (SNeeded, Some s)].

Example C38_example :
  history LPool ex38_w [(ex38_a, None); (ex38_a, None); (ex38_b, None); (ex38_a, Some O); (ex38_a, None)] initial
  = [[EInput ex38_a; ESave SHaloShape; ESave SHaloLayer; ESave SNeeded; EForward (pool_reads ex38_a)];
     [EInput ex38_a; EForward (pool_reads ex38_a)];
     [EInput ex38_b; ETeardown; ESave SHaloShape; ESave SHaloLayer; ESave SNeeded; EForward (pool_reads ex38_b)];
     [EInput ex38_a; ETeardown; EError];
     [EInput ex38_a; EError]].
Proof. reflexivity. Qed.

(** A layer that keeps no plan builds again for the same input, and stores over
    the old plan without tearing it down. *)
Theorem C38_batchnorm_refuted :
  exists (w : role) (s s' : tstruct) (r : list (slot * option tstruct)),
    s <> s' /\
    history LBatchNorm w [(s, None); (s, None); (s', None)] initial =
      [[EInput s; ESave SGlobal; EForward r];
       [EInput s; ESave SGlobal; EForward r];
       [EInput s'; ESave SGlobal; EForward [(SGlobal, Some s')]]] /\ r <> [].
Proof.
  exists ex38_w, ex38_a, ex38_b, [(SGlobal, Some ex38_a)].
  split; [discriminate|]. split; [reflexivity|discriminate].
Qed.

(** After a setup that raised, layers that mark themselves before building keep
    raising for that structure although their setup is no longer attempted. *)
Theorem C38_failed_setup_sticks :
  forall k w s n, In k [LRepartition; LPool; LFeatureConv; LUpsample] -> w_x w = true -> w_own w = false ->
    history k w ((s, Some O) :: repeat (s, None) n) initial =
      (EInput s :: (if match k with LRepartition => true | _ => false end then [ESave SInput] else []) ++ [EError])
      :: repeat [EInput s; EError] n.
Proof.
  intros k w s n HI Hx Ho.
  assert (SE : struct_eqb s s = true) by (apply struct_eqb_eq; reflexivity).
  rewrite history_cons.
  assert (G : forall st, requires_reset k st s = false -> read_plan (forward_reads k w) (m_plan st) = None ->
              history k w (repeat (s, None) n) st = repeat [EInput s; EError] n).
  { induction n as [|n IH]; intros st HR HN; [reflexivity|].
    cbn [repeat]. rewrite history_cons.
    assert (C : call k w (s, None) st = (st, [EInput s; EError])).
    { unfold call, pre_hook. cbn [fst snd]. rewrite HR, HN. reflexivity. }
    rewrite C. cbn [fst snd]. rewrite IH by assumption. reflexivity. }
  destruct w as [x y z o m]. cbn in Hx, Ho. subst x o.
  destruct HI as [<-|[<-|[<-|[<-|[]]]]]; cbn [orb];
    rewrite G; try reflexivity; try (cbn; unfold requires_reset, input_changed; cbn; rewrite SE; reflexivity);
    destruct y; reflexivity.
Qed.

Print Assumptions C38_plan_matches_input_partial.
Print Assumptions C38_batchnorm_refuted.
Print Assumptions C38_failed_setup_sticks.
