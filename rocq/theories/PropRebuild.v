(** C39: do all workers rebuild their plan in the same call? *)

From Verif Require Import Prelude ModelPartition ModelCollectives ModelModule ModelSlicing
  SpecIndex SpecLayout ProofSlicing ProofDecomposition PropModule.

(** What worker [w] of a partition of shape [P] is given of a balanced global
    tensor of structure [G]. *)
Definition share (P : list Z) (G : tstruct) (w : list Z) : tstruct :=
  mkst (block_shape (balanced (st_shape G) P) w) (st_dtype G) (st_rg G).

(** Inputs without failures. *)
Definition inputs (l : list tstruct) : list (tstruct * option nat) := map (fun s => (s, None)) l.

(** The worker stores a new plan in call number [n]. *)
Definition rebuilds (k : layer) (r : role) (l : list tstruct) (n : nat) : Prop :=
  exists ev a, nth_call k r (inputs l) n ev /\ In (ESave a) ev.

(** The layer keeps a plan on workers of role [r]. *)
Definition has_plan (k : layer) (r : role) : Prop := keeps_plan k /\ forward_reads k r <> [].

Definition fits (P : list Z) (G : tstruct) : Prop :=
  nonneg_shape (st_shape G) /\ length (st_shape G) = length P.

(** The claim, for layers whose workers all hold a block of a balanced input. *)
Definition C39_statement : Prop :=
  forall (k : layer) (r : role) (P : list Z) (l : list tstruct) (n : nat),
    has_plan k r -> pos_shape P -> Forall (fits P) l ->
    (forall w, valid_index P w -> rebuilds k r (map (fun G => share P G w) l) n) \/
    (forall w, valid_index P w -> ~ rebuilds k r (map (fun G => share P G w) l) n).

(** Ten entries over three workers, then eleven: only the second worker
    notices. *)
Theorem C39_refuted : ~ C39_statement.
Proof.
  intros H.
  destruct (H LPool ex38_w [1; 1; 3] [mkst [1; 1; 10] 0 true; mkst [1; 1; 11] 0 true] 1%nat) as [K|K].
  - split; [discriminate|discriminate].
  - repeat constructor.
  - repeat constructor; discriminate.
  - assert (V : valid_index [1; 1; 3] [0; 0; 0]) by (repeat constructor; lia).
    destruct (K _ V) as (ev & a & E & I). vm_compute in E. inv E.
    cbn in I. intuition discriminate.
  - assert (V : valid_index [1; 1; 3] [0; 0; 1]) by (repeat constructor; lia).
    apply (K _ V). eexists; exists SHaloShape. split; [vm_compute; reflexivity|].
    cbn. tauto.
Qed.

(** Workers that only receive are given an empty tensor, whatever the input is:
    a change of the input makes the sources rebuild alone. *)
Theorem C39_receivers_refuted :
  forall k (s s' z : tstruct), In k [LBroadcast; LSumReduce; LRepartition] -> s <> s' ->
    rebuilds k (mkrole true false false false false) [s; s'] 1 /\
    ~ rebuilds k (mkrole false true false false false) [z; z] 1.
Proof.
  intros k s s' z HI NE.
  assert (EZ : struct_eqb z z = true) by (apply struct_eqb_eq; reflexivity).
  assert (ES : struct_eqb s s' = false).
  { destruct (struct_eqb s s') eqn:E; [|reflexivity]. apply struct_eqb_eq in E. contradiction. }
  split.
  - destruct HI as [<-|[<-|[<-|[]]]];
      (eexists; exists SInput; split;
       [unfold nth_call, inputs; cbn; unfold call, pre_hook, requires_reset, input_changed; cbn;
        rewrite ES; cbn; reflexivity|cbn; tauto]).
  - intros (ev & a & E & I). unfold nth_call in E.
    destruct HI as [<-|[<-|[<-|[]]]];
      unfold inputs in E; cbn in E; unfold call, pre_hook, requires_reset, input_changed in E; cbn in E;
      rewrite EZ in E; cbn in E; inv E; cbn in I; intuition discriminate.
Qed.

(** ** When the workers do agree *)

Definition C39_partial_statement : Prop :=
  forall (k : layer) (r : role) (P : list Z) (past : list tstruct) (G G' : tstruct),
    has_plan k r -> pos_shape P -> Forall (fits P) past -> fits P G -> fits P G' ->
    let l := past ++ [G; G'] in
    let n := S (length past) in
    ((forall w, valid_index P w -> rebuilds k r (map (fun G => share P G w) l) n) \/
     (forall w, valid_index P w -> ~ rebuilds k r (map (fun G => share P G w) l) n))
    <->
    (* nothing changes, or the type or flag changes, or some extent changes by at
       least the number of workers along that dimension *)
    (G = G' \/ st_dtype G <> st_dtype G' \/ st_rg G <> st_rg G' \/
     exists d, (d < length P)%nat /\
       nth d P 0 <= Z.abs (nth d (st_shape G) 0 - nth d (st_shape G') 0)).

Lemma run_none s l : forall st, snd (run_steps s l None st) = false.
Proof.
  induction l as [|x l IH]; intros st; [reflexivity|].
  destruct x as [| |a|]; cbn [run_steps]; try apply IH.
  specialize (IH (mkm (m_flag st) (m_struct st) (put (m_plan st) a (Some s)))).
  destruct (run_steps s l None _) as [[st' ev] e]. exact IH.
Qed.

Lemma run_saves s l : forall st, snd (fst (run_steps s l None st)) = map ESave (saved l).
Proof.
  induction l as [|x l IH]; intros st; [reflexivity|].
  destruct x as [| |a|]; cbn [run_steps saved]; try apply IH.
  specialize (IH (mkm (m_flag st) (m_struct st) (put (m_plan st) a (Some s)))).
  destruct (run_steps s l None _) as [[st' ev] e]. cbn in *. rewrite IH. reflexivity.
Qed.

Lemma read_built rd p s : built rd p s -> exists r, read_plan rd p = Some r.
Proof.
  induction rd as [|a rd IH]; intros B; [exists []; reflexivity|].
  cbn [read_plan]. rewrite (B a) by (left; reflexivity). rewrite andb_false_r.
  destruct IH as [r ->]; [intros b I; apply B; right; exact I|]. eexists. reflexivity.
Qed.

(** States reached without failures. *)
Definition healthy (k : layer) (w : role) (st : mstate) : Prop :=
  sound k w st /\ (m_flag st = true -> exists s, done k w st s).

Lemma hook_none k w s st : keeps_plan k -> healthy k w st ->
  let '(st', ev, e) := pre_hook k w s None st in
  e = false /\ built (forward_reads k w) (m_plan st') s.
Proof.
  intros Hk [HS HH]. unfold pre_hook.
  assert (TR : tracks_input k = true) by (destruct k; try reflexivity; exfalso; apply Hk; reflexivity).
  destruct (requires_reset k st s) eqn:ER.
  - destruct (m_flag st) eqn:EF.
    + pose proof (setup_spec k w s None (teardown k st) Hk (teardown_sound k w st Hk)) as SP.
      assert (TF : m_flag (teardown k st) = false) by (unfold teardown; rewrite TR; reflexivity).
      specialize (SP TF). pose proof (run_none s (setup_steps k w) (teardown k st)) as RN.
      destruct (run_steps s (setup_steps k w) None (teardown k st)) as [[st' ev] e].
      cbn in RN. split; [exact RN|]. apply SP. exact RN.
    + pose proof (setup_spec k w s None st Hk HS EF) as SP.
      pose proof (run_none s (setup_steps k w) st) as RN.
      destruct (run_steps s (setup_steps k w) None st) as [[st' ev] e].
      cbn in RN. split; [exact RN|]. apply SP. exact RN.
  - split; [reflexivity|]. unfold requires_reset in ER. apply orb_false_iff in ER. destruct ER as [E1 E2].
    apply negb_false_iff in E1. unfold input_changed in E2. rewrite TR in E2. cbn in E2.
    destruct (m_struct st) as [c|] eqn:EC; [|discriminate].
    apply negb_false_iff, struct_eqb_eq in E2. subst c.
    destruct (HH E1) as (s0 & B & D). destruct D as [[_ D]|D].
    + rewrite EC in D. inv D. exact B.
    + rewrite (no_steps_reads k w Hk D). intros a [].
Qed.

Lemma call_none k w s st : keeps_plan k -> healthy k w st ->
  (exists r, In (EForward r) (snd (call k w (s, None) st))) /\
  healthy k w (fst (call k w (s, None) st)) /\ done k w (fst (call k w (s, None) st)) s.
Proof.
  intros Hk HH. pose proof (hook_none k w s st Hk HH) as HN.
  assert (F : exists r, In (EForward r) (snd (call k w (s, None) st))).
  { unfold call. cbn [fst snd]. destruct (pre_hook k w s None st) as [[st' ev] e].
    destruct HN as [-> B]. destruct (read_built _ _ _ B) as [r ->]. exists r. cbn [snd].
    right. apply in_or_app. right. left. reflexivity. }
  destruct F as [r F]. split; [exists r; exact F|].
  destruct HH as [HS _]. destruct (call_done k w (s, None) st r Hk HS F) as (D & _).
  split; [|exact D]. split; [apply call_sound; assumption|]. intros _. exists s. exact D.
Qed.

Lemma initial_healthy k w : healthy k w initial.
Proof. split; [apply initial_sound|discriminate]. Qed.

(** Without failures a worker rebuilds exactly when its structure changes. *)
Lemma rebuild_iff k w : has_plan k w -> forall l n s s', nth_error l n = Some s -> nth_error l (S n) = Some s' ->
  (rebuilds k w l (S n) <-> s <> s').
Proof.
  intros [Hk HP].
  assert (G : forall l st n s s', healthy k w st -> nth_error l n = Some s -> nth_error l (S n) = Some s' ->
     exists st', healthy k w st' /\ done k w st' s /\
       nth_error (history k w (inputs l) st) (S n) = Some (snd (call k w (s', None) st'))).
  { induction l as [|j l IH]; intros st [|n] s s' HH H H'; try discriminate.
    - cbn in H. inv H. destruct l as [|j' l]; [discriminate|]. cbn in H'. inv H'.
      unfold inputs. cbn [map]. rewrite !history_cons. cbn [nth_error].
      destruct (call_none k w s st Hk HH) as (_ & H1 & H2). eauto.
    - cbn [nth_error] in H, H'. unfold inputs. cbn [map]. rewrite history_cons. cbn [nth_error].
      destruct (call_none k w j st Hk HH) as (_ & H1 & _). apply (IH _ _ _ _ H1 H H'). }
  intros l n s s' H H'. destruct (G l initial n s s' (initial_healthy k w) H H') as (st & HH & D & E).
  assert (TR : tracks_input k = true) by (destruct k; try reflexivity; exfalso; apply Hk; reflexivity).
  unfold rebuilds, nth_call. rewrite E.
  pose proof (hook_spec k w s' None st Hk (proj1 HH)) as HK.
  destruct D as [B D]. assert (D' : m_flag st = true /\ m_struct st = Some s).
  { destruct D as [D|D]; [exact D|]. exfalso. apply HP. apply (no_steps_reads k w Hk D). }
  assert (DN : done k w st s) by (split; [exact B|left; exact D']). destruct D' as [DF DS].
  unfold call. cbn [fst snd]. destruct (pre_hook k w s' None st) as [[st' ev] e] eqn:EP.
  destruct HK as (_ & _ & HK & _). destruct (HK s DN) as [K1 _]. split.
  - intros (ev' & a & Eev & I) ->. destruct (K1 eq_refl) as (-> & _). inv Eev. cbn in I.
    destruct I as [I|[I|[]]]; [discriminate|]. destruct e; [discriminate|].
    destruct (read_plan _ _); discriminate.
  - intros NE. unfold pre_hook, requires_reset, input_changed in EP. rewrite DF, TR, DS in EP. cbn in EP.
    assert (ES : struct_eqb s s' = false).
    { destruct (struct_eqb s s') eqn:X; [|reflexivity]. apply struct_eqb_eq in X. contradiction. }
    rewrite ES in EP. cbn in EP.
    pose proof (run_saves s' (setup_steps k w) (teardown k st)) as RS.
    destruct (run_steps s' (setup_steps k w) None (teardown k st)) as [[st1 ev1] e1]. cbn in RS. inv EP.
    assert (SV : exists a, In a (saved (setup_steps k w))).
    { assert (EA : forall a b, saved (a ++ b) = saved a ++ saved b).
      { induction a as [|x a IHa]; intros b; [reflexivity|]. destruct x; cbn; rewrite ?IHa; reflexivity. }
      destruct (forward_reads k w) as [|a rd] eqn:ERD; [contradiction|]. exists a.
      destruct (setup_kind k w Hk) as [pre E' _ I|_ R|_ R|pre fin b E' _ _ _ I _ _ _ _];
        rewrite ERD in *; try discriminate.
      - rewrite E', EA. apply in_or_app. left. apply I. left. reflexivity.
      - rewrite E', !EA. apply in_or_app. right. apply I. left. reflexivity. }
    destruct SV as [a SV]. eexists. exists a. split; [reflexivity|].
    right. right. apply in_or_app. left. apply in_map. exact SV.
Qed.

Lemma sub_form P i n : 0 <= i < P -> subshape1 P i n = (n - i + (P - 1)) / P.
Proof.
  intros Hi. unfold subshape1.
  pose proof (Z.div_mod n P ltac:(lia)). pose proof (Z.mod_pos_bound n P ltac:(lia)).
  destruct (i <? n mod P) eqn:E; [apply Z.ltb_lt in E|apply Z.ltb_ge in E].
  - apply (Z.div_unique_pos _ _ _ (n mod P - i - 1)); lia.
  - apply (Z.div_unique_pos _ _ _ (n mod P - i + P - 1)); lia.
Qed.

Lemma sub_changes P i n n' : 0 <= i < P -> P <= Z.abs (n - n') -> subshape1 P i n <> subshape1 P i n'.
Proof.
  intros Hi H. rewrite !sub_form by exact Hi.
  assert (L : forall a b, a + P <= b -> (a - i + (P - 1)) / P < (b - i + (P - 1)) / P).
  { intros a b HL. apply (Z.lt_le_trans _ ((a - i + (P - 1) + 1 * P) / P)).
    - rewrite Z.div_add by lia. lia.
    - apply Z.div_le_mono; lia. }
  destruct (Z.le_ge_cases n n').
  - pose proof (L n n' ltac:(lia)). lia.
  - pose proof (L n' n ltac:(lia)). lia.
Qed.

Lemma sub_keeps P n n' : 0 < P -> Z.abs (n - n') < P ->
  exists i, 0 <= i < P /\ subshape1 P i n = subshape1 P i n'.
Proof.
  assert (L : forall a b, 0 < P -> a <= b < a + P ->
             exists i, 0 <= i < P /\ subshape1 P i a = subshape1 P i b).
  { intros a b HP H. pose proof (Z.mod_pos_bound b P HP) as M. pose proof (Z.div_mod b P ltac:(lia)) as D.
    exists (b mod P). split; [exact M|]. rewrite !sub_form by exact M.
    transitivity (b / P); [symmetry|].
    - apply (Z.div_unique_pos _ _ _ (P - 1 - (b - a))); lia.
    - apply (Z.div_unique_pos _ _ _ (P - 1)); lia. }
  intros HP H. destruct (Z.le_ge_cases n n').
  - apply L; lia.
  - destruct (L n' n HP ltac:(lia)) as (i & Hi & E). eauto.
Qed.

Lemma keeps_all P : pos_shape P -> forall n n', length n = length P -> length n' = length P ->
  (forall d, (d < length P)%nat -> Z.abs (nth d n 0 - nth d n' 0) < nth d P 0) ->
  exists w, valid_index P w /\ compute_subshape P w n = compute_subshape P w n'.
Proof.
  induction 1 as [|p P Hp HP IH]; intros n n' Hn Hn' H.
  - exists []. split; [constructor|]. destruct n, n'; try discriminate. reflexivity.
  - destruct n as [|a n]; [discriminate|]. destruct n' as [|a' n']; [discriminate|].
    cbn in Hn, Hn'. injection Hn as Hn. injection Hn' as Hn'.
    destruct (IH n n' Hn Hn') as (w & Vw & Ew).
    { intros d Hd. apply (H (S d)). cbn. lia. }
    destruct (sub_keeps p a a') as (i & Hi & Ei); [exact Hp| |].
    { apply (H O). cbn. lia. }
    exists (i :: w). split; [constructor; [exact Hi|exact Vw]|].
    unfold compute_subshape in *. cbn [map3]. rewrite Ei, Ew. reflexivity.
Qed.

Lemma changes_one P : forall w n n' d, valid_index P w -> length n = length P -> length n' = length P ->
  (d < length P)%nat -> nth d P 0 <= Z.abs (nth d n 0 - nth d n' 0) ->
  compute_subshape P w n <> compute_subshape P w n'.
Proof.
  induction P as [|p P IH]; intros w n n' d Vw Hn Hn' Hd H E; [cbn in Hd; lia|].
  destruct n as [|a n]; [discriminate|]. destruct n' as [|a' n']; [discriminate|].
  cbn in Hn, Hn'. injection Hn as Hn. injection Hn' as Hn'. inv Vw.
  unfold compute_subshape in *. cbn [map3] in E. injection E as E1 E2.
  destruct d as [|d]; cbn [nth] in H.
  - eapply sub_changes; [|exact H|exact E1]. assumption.
  - eapply (IH _ n n' d); eauto. cbn in Hd. lia.
Qed.

Lemma share_shape P G w : pos_shape P -> fits P G -> valid_index P w ->
  st_shape (share P G w) = compute_subshape P w (st_shape G).
Proof. intros HP [_ HL] V. cbn. apply balanced_block_shape; assumption. Qed.

(** Equal shares of every worker are shares of equal tensors. *)
Lemma shares_whole P : pos_shape P -> forall n n', nonneg_shape n -> nonneg_shape n' ->
  length n = length P -> length n' = length P ->
  (forall w, valid_index P w -> compute_subshape P w n = compute_subshape P w n') -> n = n'.
Proof.
  induction 1 as [|p P Hp HP IH]; intros n n' Nn Nn' Hn Hn' H.
  - destruct n, n'; try discriminate. reflexivity.
  - destruct n as [|a n]; [discriminate|]. destruct n' as [|a' n']; [discriminate|].
    cbn in Hn, Hn'. injection Hn as Hn. injection Hn' as Hn'. inv Nn. inv Nn'.
    assert (V0 : exists w, valid_index P w).
    { exists (map (fun _ => 0) P). clear - HP. induction HP; constructor; auto; lia. }
    destruct V0 as [w0 V0]. f_equal.
    + rewrite <- (start1_P p a Hp), <- (start1_P p a' Hp).
      assert (S : forall j, (Z.of_nat j <= p) -> start1 p (Z.of_nat j) a = start1 p (Z.of_nat j) a').
      { induction j as [|j IHj]; intros Hj.
        - cbn. rewrite !start1_0 by exact Hp. reflexivity.
        - rewrite Nat2Z.inj_succ, <- Z.add_1_r, !start1_step by lia. rewrite IHj by lia. f_equal.
          assert (V : valid_index (p :: P) (Z.of_nat j :: w0)) by (constructor; [lia|exact V0]).
          apply H in V. unfold compute_subshape in V. cbn [map3] in V. injection V as V _. exact V. }
      specialize (S (Z.to_nat p)). rewrite Z2Nat.id in S by lia. apply S. lia.
    + apply IH; try assumption. intros w V.
      assert (V' : valid_index (p :: P) (0 :: w)) by (constructor; [lia|exact V]).
      apply H in V'. unfold compute_subshape in V'. cbn [map3] in V'. injection V' as _ V'. exact V'.
Qed.

Lemma nth_last2 {A} (past : list A) a b :
  nth_error (past ++ [a; b]) (length past) = Some a /\ nth_error (past ++ [a; b]) (S (length past)) = Some b.
Proof. induction past; cbn; auto. Qed.

Lemma C39_partial_proof : C39_partial_statement.
Proof.
  intros k r P past G G' HP Ppos _ FG FG' l n.
  assert (R : forall w, rebuilds k r (map (fun G => share P G w) l) n <-> share P G w <> share P G' w).
  { intros w. unfold l, n. rewrite map_app. cbn [map].
    destruct (nth_last2 (map (fun G => share P G w) past) (share P G w) (share P G' w)) as [N1 N2].
    rewrite map_length in N1, N2. apply (rebuild_iff k r HP _ _ _ _ N1 N2). }
  assert (SH : forall w, valid_index P w ->
    (share P G w = share P G' w <->
     compute_subshape P w (st_shape G) = compute_subshape P w (st_shape G') /\
     st_dtype G = st_dtype G' /\ st_rg G = st_rg G')).
  { intros w V. pose proof (share_shape P G w Ppos FG V) as E1. pose proof (share_shape P G' w Ppos FG' V) as E2.
    cbn in E1, E2. unfold share. rewrite E1, E2. split.
    - intros X. inv X. auto.
    - intros (-> & -> & ->). reflexivity. }
  split.
  - intros AG.
    destruct (Z.eq_dec (st_dtype G) (st_dtype G')) as [ED|ED]; [|auto].
    destruct (Bool.bool_dec (st_rg G) (st_rg G')) as [EG|EG]; [|auto].
    destruct FG as [NG LG], FG' as [NG' LG'].
    destruct (existsb (fun d => nth d P 0 <=? Z.abs (nth d (st_shape G) 0 - nth d (st_shape G') 0))
                (seq 0 (length P))) eqn:EX.
    + apply existsb_exists in EX. destruct EX as (d & Id & Hd). apply in_seq in Id. apply Z.leb_le in Hd.
      right. right. right. exists d. split; [lia|exact Hd].
    + left. destruct (keeps_all P Ppos (st_shape G) (st_shape G') LG LG') as (w & V & E).
      { intros d Hd. apply Z.nle_gt. intros C. apply Z.leb_le in C.
        assert (X : existsb (fun d => nth d P 0 <=? Z.abs (nth d (st_shape G) 0 - nth d (st_shape G') 0))
                (seq 0 (length P)) = true).
        { apply existsb_exists. exists d. split; [apply in_seq; lia|exact C]. }
        congruence. }
      destruct AG as [A|A].
      * exfalso. apply (proj1 (R w) (A w V)). apply SH; auto.
      * assert (ES : st_shape G = st_shape G').
        { apply (shares_whole P Ppos _ _ NG NG' LG LG'). intros w' V'.
          assert (NN : ~ share P G w' <> share P G' w') by (intros X; apply (A w' V'), R, X).
          destruct (list_eq_dec Z.eq_dec (compute_subshape P w' (st_shape G)) (compute_subshape P w' (st_shape G')))
            as [Y|Y]; [exact Y|]. exfalso. apply NN. intros X. apply Y. apply SH in X; tauto. }
        destruct G, G'. cbn in *. congruence.
  - intros [E|[E|[E|(d & Hd & H)]]].
    + right. intros w V X. apply R in X. subst. apply X. reflexivity.
    + left. intros w V. apply R. intros X. apply SH in X; tauto.
    + left. intros w V. apply R. intros X. apply SH in X; tauto.
    + left. intros w V. apply R. intros X. apply SH in X; [|exact V]. destruct X as [X _].
      destruct FG as [_ LG], FG' as [_ LG']. revert X. eapply changes_one; eauto.
Qed.

Theorem C39_agreement_partial : C39_partial_statement.
Proof. exact C39_partial_proof. Qed.

(** Three more columns over two times three workers: everybody rebuilds. *)
Example C39_example :
  let P := [1; 1; 2; 3] in
  let G := mkst [1; 1; 5; 10] 0 true in
  let G' := mkst [1; 1; 5; 13] 0 true in
  has_plan LPool ex38_w /\ pos_shape P /\ fits P G /\ fits P G' /\
  nth 3 P 0 <= Z.abs (nth 3 (st_shape G) 0 - nth 3 (st_shape G') 0) /\
  share P G [0; 0; 1; 0] = mkst [1; 1; 2; 4] 0 true /\
  share P G' [0; 0; 1; 0] = mkst [1; 1; 2; 5] 0 true /\
  rebuilds LPool ex38_w [share P G [0; 0; 1; 0]; share P G' [0; 0; 1; 0]] 1.
Proof.
  intros P G G'. split; [split; discriminate|]. split; [repeat constructor|].
  split; [split; [repeat constructor; discriminate|reflexivity]|].
  split; [split; [repeat constructor; discriminate|reflexivity]|].
  split; [vm_compute; discriminate|]. split; [reflexivity|]. split; [reflexivity|].
  eexists; exists SHaloShape. split; [vm_compute; reflexivity|]. cbn. tauto.
Qed.

Print Assumptions C39_refuted.
Print Assumptions C39_receivers_refuted.
Print Assumptions C39_agreement_partial.
