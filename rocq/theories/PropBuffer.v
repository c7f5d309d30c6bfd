(** C22 (buffers of a transfer plan do not alias), C23 (contents and views of
    expandable buffers), C24 (earlier views stay attached). *)

From Verif Require Import Prelude SpecIndex ModelSlicing ProofSlicing ModelUtilities PropUtilities
  ModelBuffer ProofBuffer.

(** The raw array of buffer [b], its element type. *)
Definition stored {A K} (w : @world A K) (b : nat) : list A :=
  match nth_error (wbufs w) b with
  | Some x => nth (braw x) (wheap w) []
  | None => []
  end.
Definition has_type {A K} (w : @world A K) (b : nat) (k : K) : Prop :=
  exists x, nth_error (wbufs w) b = Some x /\ bdtype x = k.
Definition exists_buffer {A K} (w : @world A K) (b : nat) : Prop := (b < length (wbufs w))%nat.

(** Shapes for which a view can be requested: not the empty tuple (on which
    [np.prod] gives a float), no negative extent. *)
Definition good_shape (sh : list Z) : Prop := sh <> [] /\ nonneg_shape sh.

(** Histories: initial capacities are not negative. *)
Definition good_history {A K} (ops : list (@op A K)) : Prop :=
  Forall (fun o => match o with ORequest _ _ cap _ => 0 <= cap | _ => True end) ops.

Definition no_write {A K} (o : @op A K) : Prop := forall k idx a, o <> OWrite k idx a.

(** * C22 *)

(** An overlap that needs a buffer: present and not local. *)
Definition is_transfer (o : overlap) : Prop := fst (fst o) = true /\ snd o <> PSelf.

Definition somes {B} (l : list (option B)) : list B :=
  flat_map (fun o => match o with Some b => [b] | None => [] end) l.

(** [l] gives a buffer of type [k] with a ready view to every transfer of the
    plan and none to the other entries. *)
Definition serves {A K} (w : @world A K) (k : K) (plan : list overlap) (l : list (option nat)) : Prop :=
  Forall2 (fun o ob =>
    (is_transfer o <-> exists b, ob = Some b) /\
    (forall b, ob = Some b -> has_type w b k /\
       forall junk, exists arr, get_view w b (snd (fst o)) junk = (w, Some (snd (fst o), arr)) /\
         zprod (snd (fst o)) <= Z.of_nat (length (nth arr (wheap w) [])))) plan l.

Definition C22_statement : Prop :=
  forall (A K : Type) (keqb : K -> K -> bool), (forall a b, keqb a b = true <-> a = b) ->
  forall ops, good_history ops ->
  let w := fst (run keqb (world0 (A := A), []) ops) in
  (* the buffers of one plan *)
  (forall x_to_y y_to_x k junk,
     (forall o, In o (x_to_y ++ y_to_x) -> is_transfer o -> good_shape (snd (fst o))) ->
     exists w' l1 l2,
       allocate_repartition_buffers keqb w x_to_y y_to_x k junk = Some (w', l1, l2) /\
       serves w' k x_to_y l1 /\ serves w' k y_to_x l2 /\
       NoDup (somes (l1 ++ l2)) /\
       (* distinct buffers have distinct arrays *)
       (forall b b' sh sh' arr j j', In b (somes (l1 ++ l2)) -> In b' (somes (l1 ++ l2)) ->
          get_view w' b sh j = (w', Some (sh, arr)) ->
          get_view w' b' sh' j' = (w', Some (sh', arr)) -> b = b')) /\
  (* requests to the manager *)
  (forall n k cap junk n' k' cap' junk' ops', 0 <= cap -> 0 <= cap' -> good_history ops' ->
     let (w1, l) := request_buffers keqb w n k cap junk in
     let w2 := fst (run keqb (w1, snd (run keqb (world0, []) ops)) ops') in
     let (w3, l') := request_buffers keqb w2 n' k' cap' junk' in
     length l = n /\ length l' = n' /\ NoDup l /\
     (forall b, In b l -> has_type w1 b k /\ has_type w3 b k) /\
     (k = k' -> firstn (Nat.min n n') l = firstn (Nat.min n n') l') /\
     (k <> k' -> forall b, In b l -> ~ In b l')).

Lemma in_firstn {B} (b : B) n l : In b (firstn n l) -> In b l.
Proof. intros H. rewrite <- (firstn_skipn n l). apply in_or_app. auto. Qed.

Lemma NoDup_app_l {B} (l m : list B) : NoDup (l ++ m) -> NoDup l.
Proof.
  induction l as [|a l IH]; intros H; [constructor|]. inv H. constructor; auto.
  intros Hin. apply H2. apply in_or_app; auto.
Qed.
Lemma NoDup_app_r {B} (l m : list B) : NoDup (l ++ m) -> NoDup m.
Proof. induction l as [|a l IH]; intros H; auto. inv H. auto. Qed.
Lemma NoDup_app_disjoint {B} (l m : list B) b : NoDup (l ++ m) -> In b l -> In b m -> False.
Proof.
  induction l as [|a l IH]; simpl; [tauto|]. intros H [->|H1] H2; inv H; auto.
  apply H3. apply in_or_app; auto.
Qed.

Section C22.
  Context {A K : Type} (keqb : K -> K -> bool).
  Hypothesis keqb_ok : forall a b, keqb a b = true <-> a = b.

  Lemma needs_buffer_ok o : needs_buffer o = true <-> is_transfer o.
  Proof.
    destruct o as [[has sh] p]. unfold is_transfer, needs_buffer. cbn [fst snd].
    destruct p; split; intros; try split; try tauto; try discriminate; try (now destruct H).
  Qed.

  Lemma reach_inv ops : good_history ops ->
    exists own, inv keqb (fst (run keqb (world0 (A := A), []) ops)) (snd (run keqb (world0 (A := A), []) ops)) own.
  Proof.
    intros H. pose proof (run_inv keqb keqb_ok ops (world0 (A := A)) [] [] (inv0 keqb)) as R.
    destruct (run keqb (world0, []) ops) as [w' i']. cbn [fst snd]. apply R. exact H.
  Qed.

  (** A view that is already there. *)
  Definition ready (w : @world A K) (b : nat) (sh : list Z) : Prop :=
    exists x, nth_error (wbufs w) b = Some x /\ dict_get zlist_eqb (bviews x) sh = Some (sh, braw x).

  Lemma get_view_makes_ready (w : @world A K) issued own b sh junk : inv keqb w issued own ->
    exists_buffer w b -> good_shape sh ->
    exists w' own', (exists v, get_view w b sh junk = (w', Some v)) /\ inv keqb w' issued own' /\
      extends w w' /\ ready w' b sh /\ wmap w' = wmap w /\
      (forall b', b' <> b -> nth_error (wbufs w') b' = nth_error (wbufs w) b').
  Proof.
    intros I Hb Hs.
    destruct (get_view_spec keqb w issued own b sh junk I Hb Hs) as (w' & x' & own' & E & F1 & F2 & F3 & F4 & F5).
    exists w', own'. split; [eauto|]. split.
    { constructor; try apply F2. intros b0 v0 Hin. apply (i_iss keqb _ _ _ F2). apply in_or_app; auto. }
    split; auto. split; [|split; auto].
    - exists x'. split; auto. unfold get_view, get_buf in E. unfold exists_buffer in Hb.
      destruct (nth_error (wbufs w) b) as [x|] eqn:Hx; [|discriminate].
      destruct (dict_get zlist_eqb (bviews x) sh) as [v|] eqn:Ed.
      + injection E as <- ->. assert (x = x') by congruence. now subst x'.
      + destruct sh as [|s0 sh0] eqn:Esh; [discriminate|]. rewrite <- Esh in *.
        destruct (existsb _ sh); [discriminate|].
        set (w1 := if bcap x <? zprod sh then expand w b (zprod sh) junk else w) in *.
        destruct (nth_error (wbufs w1) b) as [x1|] eqn:Hx1; [|discriminate].
        injection E as <- Er.
        cbn [set_buf wbufs] in F1. rewrite nth_error_upd_same in F1 by (eapply nth_error_lt; eauto).
        injection F1 as <-. cbn [bviews braw]. apply (get_set_same zlist_eqb zlist_eqb_eq).
    - intros b' Hne. unfold get_view, get_buf in E.
      destruct (nth_error (wbufs w) b) as [x|] eqn:Hx; [|discriminate].
      destruct (dict_get zlist_eqb (bviews x) sh) as [v|] eqn:Ed.
      + injection E as <- _. auto.
      + destruct sh as [|s0 sh0] eqn:Esh; [discriminate|]. rewrite <- Esh in *.
        destruct (existsb _ sh); [discriminate|].
        destruct (bcap x <? zprod sh).
        * destruct (nth_error (wbufs (expand w b (zprod sh) junk)) b); [|discriminate].
          injection E as <- _. cbn [set_buf wbufs]. rewrite nth_error_upd_other by auto. now apply expand_others.
        * destruct (nth_error (wbufs w) b); [|discriminate].
          injection E as <- _. cbn [set_buf wbufs]. now rewrite nth_error_upd_other by auto.
  Qed.

  Lemma hand_out_spec junk : forall ovs (w : @world A K) issued own bufs, inv keqb w issued own ->
    NoDup bufs -> (forall b, In b bufs -> exists_buffer w b) ->
    (forall o, In o ovs -> is_transfer o -> good_shape (snd (fst o))) ->
    (length (filter needs_buffer ovs) <= length bufs)%nat ->
    exists w' own' used l,
      hand_out w bufs ovs junk = Some (w', skipn (length used) bufs, l) /\
      inv keqb w' issued own' /\ extends w w' /\ wmap w' = wmap w /\
      used = firstn (length (filter needs_buffer ovs)) bufs /\ somes l = used /\
      length used = length (filter needs_buffer ovs) /\
      (forall b', ~ In b' used -> nth_error (wbufs w') b' = nth_error (wbufs w) b') /\
      Forall2 (fun o ob => (is_transfer o <-> exists b, ob = Some b) /\
                           (forall b, ob = Some b -> ready w' b (snd (fst o)))) ovs l.
  Proof.
    induction ovs as [|o ovs IH]; intros w issued own bufs I Hnd Hex Hsh Hlen; cbn [hand_out filter] in *.
    - exists w, own, [], []. cbn [length skipn firstn]. 
      repeat (split; auto); auto using extends_refl; try lia.
      intros; eexists; repeat (split; eauto); try lia. exists []. now rewrite app_nil_r.
    - destruct (needs_buffer o) eqn:En.
      + destruct bufs as [|b bufs]; [cbn [length] in Hlen; lia|].
        assert (Ht : is_transfer o) by now apply needs_buffer_ok.
        destruct (get_view_makes_ready w issued own b (snd (fst o)) junk I) as (w1 & own1 & (v & E) & I1 & X1 & R1 & M1 & O1).
        { apply Hex. simpl; auto. }
        { apply Hsh; simpl; auto. }
        rewrite E. inversion Hnd as [|? ? Hnb Hnd']; subst.
        destruct (IH w1 issued own1 bufs I1 Hnd') as (w2 & own2 & used & l & F1 & F2 & F3 & F4 & F5 & F6 & F7 & F8 & F9).
        { intros b' Hb'. unfold exists_buffer. destruct X1 as [L _]. specialize (Hex b' (or_intror Hb')).
          unfold exists_buffer in Hex. lia. }
        { intros; apply Hsh; simpl; auto. }
        { cbn [length] in Hlen. lia. }
        rewrite F1. exists w2, own2, (b :: used), (Some b :: l).
        cbn [length skipn firstn]. split; auto. split; auto. split; [eapply extends_trans; eauto|].
        split; [congruence|]. split; [congruence|]. split; [change (b :: somes l = b :: used); now rewrite F6|]. split; [congruence|].
        assert (Hbu : ~ In b used).
        { rewrite F5. intros Hin. apply Hnb. eapply in_firstn; eauto. }
        split.
        * intros b' Hb'. cbn [In] in Hb'. rewrite F8 by tauto. apply O1. intros ->. tauto.
        * constructor; auto. split.
          -- split; intros; eauto.
          -- intros b0 [= <-]. destruct R1 as (x & G1 & G2). exists x. split; auto. now rewrite F8.
      + destruct (IH w issued own bufs I Hnd Hex) as (w2 & own2 & used & l & F1 & F2 & F3 & F4 & F5 & F6 & F7 & F8 & F9); auto.
        { intros; apply Hsh; simpl; auto. }
        rewrite F1. exists w2, own2, used, (None :: l).
        split; auto. split; auto. split; auto. split; auto. split; auto. split; auto. split; auto. split; auto.
        constructor; auto. split.
        * split; [|intros [b Hb]; discriminate]. intros H. apply needs_buffer_ok in H. congruence.
        * discriminate.
  Qed.

  Lemma ready_serves (w : @world A K) issued own b sh k : inv keqb w issued own ->
    ready w b sh -> has_type w b k -> has_type w b k /\
      forall junk, exists arr, get_view w b sh junk = (w, Some (sh, arr)) /\
        zprod sh <= Z.of_nat (length (nth arr (wheap w) [])).
  Proof.
    intros I (x & H1 & H2) Ht. split; auto. intros junk. exists (braw x). split.
    - unfold get_view, get_buf. now rewrite H1, H2.
    - destruct (i_buf keqb _ _ _ I _ _ H1) as (_ & (arr & G1 & G2) & G3).
      destruct (G3 _ _ H2) as (_ & _ & G4). rewrite (nth_error_nth _ _ [] G1). lia.
  Qed.

  (** A view handed out without any change is one of the buffer's array. *)
  Lemma get_view_same (w : @world A K) issued own b sh junk arr : inv keqb w issued own ->
    get_view w b sh junk = (w, Some (sh, arr)) -> nth_error own arr = Some b.
  Proof.
    intros I E.
    destruct (get_view_fail keqb w issued own b sh junk I) as [[H1 H2]|E']; [|congruence].
    destruct (get_view_spec keqb w issued own b sh junk I H1 H2) as (w' & x' & own' & E2 & F1 & _).
    rewrite E in E2. injection E2 as <- ->.
    now destruct (i_buf keqb _ _ _ I _ _ F1) as (Ho & _).
  Qed.

  Lemma somes_app (l1 l2 : list (option nat)) : somes (l1 ++ l2) = somes l1 ++ somes l2.
  Proof. unfold somes. apply flat_map_app. Qed.

  Lemma in_somes (l : list (option nat)) b : In (Some b) l -> In b (somes l).
  Proof. intros H. unfold somes. apply in_flat_map. exists (Some b). simpl; auto. Qed.

  Lemma Forall2_in_r {X Y} (P : X -> Y -> Prop) l m y : Forall2 P l m -> In y m -> exists x, In x l /\ P x y.
  Proof. induction 1; simpl; [tauto|]. intros [<-|H1]; [eauto|]. destruct IHForall2 as (z & ? & ?); eauto. Qed.

  Lemma extends_type (w w' : @world A K) b k : extends w w' -> has_type w b k -> has_type w' b k.
  Proof.
    intros [_ X] (x & H1 & H2). destruct (X _ _ H1) as (x' & G1 & G2 & _). exists x'. split; congruence.
  Qed.

  Lemma grows_type (w w' : @world A K) b k : grows keqb w w' -> has_type w b k -> has_type w' b k.
  Proof.
    intros [X _] (x & H1 & H2). destruct (X _ _ H1) as (x' & G1 & G2 & _). exists x'. split; congruence.
  Qed.

  Lemma serves_intro (w : @world A K) issued own k plan l : inv keqb w issued own ->
    (forall b, In b (somes l) -> has_type w b k) ->
    Forall2 (fun o ob => (is_transfer o <-> exists b, ob = Some b) /\
                         (forall b, ob = Some b -> ready w b (snd (fst o)))) plan l ->
    serves w k plan l.
  Proof.
    intros I Ht H. unfold serves. induction H as [|o ob plan l [H1 H2] H IH]; constructor.
    - split; auto. intros b ->. eapply ready_serves; eauto. apply Ht. simpl. auto.
    - apply IH. intros b Hb. apply Ht. unfold somes in *. cbn [flat_map]. apply in_or_app; auto.
  Qed.

  Lemma allocate_spec (w : @world A K) issued own x_to_y y_to_x k junk : inv keqb w issued own ->
    (forall o, In o (x_to_y ++ y_to_x) -> is_transfer o -> good_shape (snd (fst o))) ->
    exists w' l1 l2 own',
      allocate_repartition_buffers keqb w x_to_y y_to_x k junk = Some (w', l1, l2) /\
      inv keqb w' issued own' /\ extends w w' /\
      serves w' k x_to_y l1 /\ serves w' k y_to_x l2 /\ NoDup (somes (l1 ++ l2)).
  Proof.
    intros I Hsh. unfold allocate_repartition_buffers.
    set (count := length (filter needs_buffer x_to_y ++ filter needs_buffer y_to_x)).
    destruct (request_spec keqb keqb_ok w issued own count k 0 junk I) as (own1 & w1 & bufs & E & I1 & X1 & _ & _ & Hn & El);
      [lia|]. rewrite E.
    destruct (have_ok keqb w1 issued own1 k I1) as [Hnd Hty].
    assert (Hnb : NoDup bufs).
    { rewrite El. rewrite <- (firstn_skipn count (have keqb w1 k)) in Hnd. eapply NoDup_app_l; eauto. }
    assert (Hlen : length bufs = count) by (rewrite El, firstn_length; lia).
    assert (Htb : forall b, In b bufs -> has_type w1 b k).
    { intros b Hb. rewrite El in Hb. apply in_firstn in Hb. apply Hty; auto. }
    assert (Hexb : forall b, In b bufs -> exists_buffer w1 b).
    { intros b Hb. destruct (Htb _ Hb) as (x & Hx & _). eapply nth_error_lt; eauto. }
    unfold count in Hlen. rewrite app_length in Hlen.
    destruct (hand_out_spec junk x_to_y w1 issued own1 bufs I1 Hnb Hexb)
      as (w2 & own2 & used & l1 & F1 & I2 & X2 & M2 & U2 & S2 & L2 & O2 & R2).
    { intros; apply Hsh; auto. apply in_or_app; auto. }
    { lia. }
    rewrite F1.
    assert (Hsp : bufs = used ++ skipn (length used) bufs).
    { rewrite U2 at 1. rewrite L2. now rewrite firstn_skipn. }
    destruct (hand_out_spec junk y_to_x w2 issued own2 (skipn (length used) bufs) I2)
      as (w3 & own3 & used' & l2 & F1' & I3 & X3 & M3 & U3 & S3 & L3 & O3 & R3).
    { rewrite Hsp in Hnb. eapply NoDup_app_r; eauto. }
    { intros b Hb. destruct X2 as [L _]. unfold exists_buffer.
      assert (Hin : In b bufs) by (rewrite Hsp; apply in_or_app; auto).
      specialize (Hexb b Hin). unfold exists_buffer in Hexb. lia. }
    { intros; apply Hsh; auto. apply in_or_app; auto. }
    { rewrite skipn_length. lia. }
    rewrite F1'. exists w3, l1, l2, own3. split; auto. split; auto.
    split; [eapply extends_trans; [exact X1|eapply extends_trans; eauto]|].
    assert (Hdis : forall b, In b used -> ~ In b used').
    { intros b Hb Hb'. rewrite U3 in Hb'. apply in_firstn in Hb'. rewrite Hsp in Hnb.
      eapply NoDup_app_disjoint; eauto. }
    split; [|split].
    - eapply serves_intro; eauto.
      + intros b Hb. rewrite S2 in Hb. eapply extends_type; [exact X3|]. eapply extends_type; [exact X2|].
        apply Htb. rewrite Hsp. apply in_or_app; auto.
      + revert R2. assert (Hin : forall b, In b (somes l1) -> ~ In b used') by (rewrite S2; auto).
        revert Hin. clear - O3. intros Hin R. induction R as [|o ob plan l [H1 H2] R IH]; constructor.
        * split; auto. intros b ->. destruct (H2 b eq_refl) as (x & G1 & G2). exists x. split; auto.
          rewrite O3; auto. apply Hin. simpl; auto.
        * apply IH. intros b Hb. apply Hin. unfold somes in *. cbn [flat_map]. apply in_or_app; auto.
    - eapply serves_intro; eauto. intros b Hb. rewrite S3, U3 in Hb. apply in_firstn in Hb.
      eapply extends_type; [exact X3|]. eapply extends_type; [exact X2|].
      apply Htb. rewrite Hsp. apply in_or_app; auto.
    - rewrite somes_app, S2, S3. rewrite Hsp in Hnb.
      apply NoDup_app; auto.
      + eapply NoDup_app_l; eauto.
      + rewrite U3. apply NoDup_app_r in Hnb.
        rewrite <- (firstn_skipn (length (filter needs_buffer y_to_x)) (skipn (length used) bufs)) in Hnb.
        eapply NoDup_app_l; eauto.
  Qed.
End C22.

Lemma C22_proof : C22_statement.
Proof.
  intros A K keqb Hk ops Hops. cbv zeta.
  destruct (reach_inv (A := A) keqb Hk ops Hops) as [own I].
  set (h := run keqb (world0, []) ops) in *. split.
  - intros x_to_y y_to_x k junk Hsh.
    destruct (allocate_spec keqb Hk (fst h) (snd h) own x_to_y y_to_x k junk I Hsh)
      as (w' & l1 & l2 & own' & E & I' & _ & S1 & S2 & Hnd).
    exists w', l1, l2. split; auto. split; auto. split; auto. split; auto.
    intros b b' sh sh' arr j j' _ _ E1 E2.
    pose proof (get_view_same keqb w' (snd h) own' b sh j arr I' E1) as G1.
    pose proof (get_view_same keqb w' (snd h) own' b' sh' j' arr I' E2) as G2. congruence.
  - intros n k cap junk n' k' cap' junk' ops' Hc Hc' Hops'.
    destruct (request_spec keqb Hk (fst h) (snd h) own n k cap junk I Hc)
      as (own1 & w1 & l & E & I1 & X1 & (new & M1) & M1' & Hn & El).
    rewrite E.
    pose proof (run_inv keqb Hk ops' w1 (snd h) own1 I1 Hops') as R.
    destruct (run keqb (w1, snd h) ops') as [w2 is2]. cbn [fst].
    destruct R as ((own2 & I2) & G2 & _ & _).
    destruct (request_spec keqb Hk w2 is2 own2 n' k' cap' junk' I2 Hc')
      as (own3 & w3 & l' & E' & I3 & X3 & (new3 & M3) & M3' & Hn' & El').
    rewrite E'.
    destruct (have_ok keqb w1 (snd h) own1 k I1) as [Hnd1 Hty1].
    destruct (have_ok keqb w3 is2 own3 k' I3) as [Hnd3 Hty3].
    destruct (g_map keqb _ _ G2 k) as [new2 M2].
    split; [rewrite El, firstn_length; lia|]. split; [rewrite El', firstn_length; lia|]. split.
    { rewrite El. rewrite <- (firstn_skipn n (have keqb w1 k)) in Hnd1. eapply NoDup_app_l; eauto. }
    assert (Ht1 : forall b, In b l -> has_type w1 b k).
    { intros b Hb. rewrite El in Hb. apply in_firstn in Hb. now apply Hty1. }
    assert (Ht3 : forall b, In b l -> has_type w3 b k).
    { intros b Hb. eapply extends_type; [exact X3|]. eapply grows_type; eauto. }
    split; [auto|]. split.
    + intros <-. rewrite El, El', !firstn_firstn, M3, M2, <- app_assoc.
      replace (Nat.min (Nat.min n n') n) with (Nat.min n n') by lia.
      replace (Nat.min (Nat.min n n') n') with (Nat.min n n') by lia.
      rewrite firstn_app. replace (Nat.min n n' - length (have keqb w1 k))%nat with 0%nat by lia.
      now rewrite firstn_O, app_nil_r.
    + intros Hne b Hb Hb'. rewrite El' in Hb'. apply in_firstn in Hb'.
      destruct (Hty3 _ Hb') as (x & G3 & G4). destruct (Ht3 _ Hb) as (x' & G5 & G6). congruence.
Qed.

Theorem C22_no_aliasing : C22_statement.
Proof. exact C22_proof. Qed.

(** Two sends and a receive next to a local and an absent overlap, on a manager
    used before. *)
Example C22_example :
  let w := fst (run Z.eqb (world0 (A := Z), []) [ORequest 1 11 4 (fun _ => 0); OExpand 0 7 (fun _ => 0)]) in
  let x_to_y := [(true, [2; 3], PRank 1); (true, [2; 2], PSelf); (true, [5; 4], PRank 3)] in
  let y_to_x := [(false, [], PNone); (true, [3; 3], PRank 2)] in
  (forall o, In o (x_to_y ++ y_to_x) -> is_transfer o -> good_shape (snd (fst o))) /\
  option_map (fun r => (snd (fst r), snd r)) (allocate_repartition_buffers Z.eqb w x_to_y y_to_x 11 (fun _ => 0))
  = Some ([Some 0%nat; None; Some 1%nat], [None; Some 2%nat]).
Proof.
  split; [|reflexivity].
  intros o Hin Ht. cbn in Hin. repeat destruct Hin as [<-|Hin]; try tauto; cbn;
    try (split; [discriminate|repeat constructor; lia]).
  destruct Ht as [E _]. discriminate.
Qed.

(** * C23 *)

(** [w'] differs from [w] in the contents of [b] only by added elements, and the
    other buffers' contents are the same. *)
Definition only_grows {A K} (w w' : @world A K) (b : nat) : Prop :=
  (exists extra, stored w' b = stored w b ++ extra) /\
  (forall b', b' <> b -> stored w' b' = stored w b').

Definition C23_statement : Prop :=
  forall (A K : Type) (keqb : K -> K -> bool) (dflt : A), (forall a b, keqb a b = true <-> a = b) ->
  forall ops, good_history ops ->
  let h := run keqb (world0 (A := A), []) ops in
  let w := fst h in
  (* requests *)
  (forall b sh junk, exists_buffer w b -> good_shape sh ->
     exists w' arr, get_view w b sh junk = (w', Some (sh, arr)) /\
       zprod sh <= Z.of_nat (length (stored w' b)) /\
       (forall idx, valid_index sh idx ->
          read_view dflt w' (sh, arr) idx = nth (Z.to_nat (row_major sh idx)) (stored w' b) dflt) /\
       only_grows w w' b) /\
  (* expansion *)
  (forall b n junk, exists_buffer w b ->
     n <= Z.of_nat (length (stored (expand w b n junk) b)) /\ only_grows w (expand w b n junk) b) /\
  (* writes through a view obtained at any time before *)
  (forall k b v idx a, nth_error (snd h) k = Some (b, v) -> valid_index (fst v) idx ->
     let w' := fst (do_op keqb h (OWrite k idx a)) in
     read_view dflt w' v idx = a /\
     (forall idx', valid_index (fst v) idx' -> idx' <> idx -> read_view dflt w' v idx' = read_view dflt w v idx') /\
     length (stored w' b) = length (stored w b) /\
     (forall b', b' <> b -> stored w' b' = stored w b')) /\
  (* any further history *)
  (forall ops' b, good_history ops' -> exists_buffer w b ->
     let w' := fst (run keqb h ops') in
     (length (stored w b) <= length (stored w' b))%nat /\
     (Forall no_write ops' -> exists extra, stored w' b = stored w b ++ extra)).

Section C23.
  Context {A K : Type} (keqb : K -> K -> bool).
  Hypothesis keqb_ok : forall a b, keqb a b = true <-> a = b.
  Variable dflt : A.

  Lemma stored_contents (w : @world A K) b : stored w b = contents w b.
  Proof. reflexivity. Qed.

  Lemma stored_length (w : @world A K) issued own b x : inv keqb w issued own ->
    nth_error (wbufs w) b = Some x -> Z.of_nat (length (stored w b)) = bcap x.
  Proof.
    intros I H. destruct (i_buf keqb _ _ _ I _ _ H) as (_ & (arr & H2 & H3) & _).
    rewrite stored_contents, (contents_some w b x arr H H2). auto.
  Qed.

  Lemma exists_buf (w : @world A K) b : exists_buffer w b -> exists x, nth_error (wbufs w) b = Some x.
  Proof.
    unfold exists_buffer. intros H. destruct (nth_error (wbufs w) b) eqn:E; eauto.
    apply nth_error_None in E. lia.
  Qed.

  Lemma extends_stored (w w' : @world A K) b : extends w w' -> exists_buffer w b ->
    exists extra, stored w' b = stored w b ++ extra.
  Proof.
    intros [_ X] H. destruct (exists_buf w b H) as [x Hx]. destruct (X _ _ Hx) as (x' & _ & _ & _ & _ & E). exact E.
  Qed.

  (** Buffers whose record is unchanged keep their contents when arrays are only
      added. *)
  Lemma stored_same (w w' : @world A K) issued own b : inv keqb w issued own ->
    (exists more, wheap w' = wheap w ++ more) -> nth_error (wbufs w') b = nth_error (wbufs w) b ->
    stored w' b = stored w b.
  Proof.
    intros I [more Hh] E. unfold stored. rewrite E. destruct (nth_error (wbufs w) b) as [x|] eqn:Hx; auto.
    destruct (i_buf keqb _ _ _ I _ _ Hx) as (_ & (arr & H2 & _) & _).
    rewrite Hh. rewrite (nth_error_nth _ _ [] H2). apply nth_error_nth. now apply nth_error_app_old.
  Qed.

  Lemma expand_heap (w : @world A K) b n junk : exists more, wheap (expand w b n junk) = wheap w ++ more.
  Proof.
    unfold expand. destruct (get_buf w b); [|exists []; now rewrite app_nil_r].
    destruct (n <=? bcap b0); [exists []; now rewrite app_nil_r|]. cbn [wheap]. eauto.
  Qed.

  Lemma get_view_heap (w : @world A K) b sh junk :
    exists more, wheap (fst (get_view w b sh junk)) = wheap w ++ more.
  Proof.
    assert (N : exists more, wheap w = wheap w ++ more) by (exists []; now rewrite app_nil_r).
    unfold get_view. destruct (get_buf w b) as [x|]; auto.
    destruct (dict_get zlist_eqb (bviews x) sh); auto.
    destruct sh; auto. destruct (existsb _ _); auto.
    destruct (bcap x <? zprod (z :: sh)).
    - destruct (get_buf (expand w b (zprod (z :: sh)) junk) b); cbn [fst set_buf wheap]; apply expand_heap.
    - destruct (get_buf w b); cbn [fst set_buf wheap]; auto.
  Qed.

  Lemma valid_row_major sh idx : valid_index sh idx -> cartesian_index_c sh idx = row_major sh idx.
  Proof. intros H. apply cartesian_index_c_row_major. now apply valid_index_length. Qed.

  Lemma get_view_full (w : @world A K) issued own b sh junk : inv keqb w issued own ->
    exists_buffer w b -> good_shape sh ->
    exists w' arr, get_view w b sh junk = (w', Some (sh, arr)) /\
       zprod sh <= Z.of_nat (length (stored w' b)) /\
       (forall idx, valid_index sh idx ->
          read_view dflt w' (sh, arr) idx = nth (Z.to_nat (row_major sh idx)) (stored w' b) dflt) /\
       only_grows w w' b.
  Proof.
    intros I Hb Hs.
    destruct (get_view_spec keqb w issued own b sh junk I Hb Hs) as (w' & x' & own' & E & F1 & F2 & F3 & F4 & F5).
    exists w', (braw x'). split; auto.
    split; [rewrite (stored_length w' _ own' b x' F2 F1); auto|]. split; [|split].
    - intros idx Hi. unfold read_view. cbn [fst snd]. rewrite valid_row_major by auto.
      unfold stored. now rewrite F1.
    - now apply extends_stored.
    - intros b' Hne. apply stored_same with (issued := issued) (own := own); auto.
      + pose proof (get_view_heap w b sh junk) as G. now rewrite E in G.
      + destruct (get_view_makes_ready keqb w issued own b sh junk I Hb Hs)
          as (w2 & own2 & (v & E2) & _ & _ & _ & _ & O). rewrite E in E2. injection E2 as <- _. auto.
  Qed.

  Lemma row_major_lt sh idx : valid_index sh idx -> 0 <= row_major sh idx < zprod sh.
  Proof. apply row_major_bound. Qed.

  Lemma nth_upd_same {X} i (x d : X) l : (i < length l)%nat -> nth i (upd i x l) d = x.
  Proof. intros H. apply nth_error_nth. now apply nth_error_upd_same. Qed.

  Lemma nth_upd_other {X} i j (x d : X) l : i <> j -> nth j (upd i x l) d = nth j l d.
  Proof.
    intros H. destruct (nth_error l j) as [y|] eqn:E.
    - rewrite (nth_error_nth l j d E). apply nth_error_nth. now rewrite nth_error_upd_other.
    - rewrite !nth_overflow; auto.
      + now apply nth_error_None.
      + rewrite upd_length. now apply nth_error_None.
  Qed.

  Lemma write_full (w : @world A K) issued own b v idx a : inv keqb w issued own -> In (b, v) issued ->
    valid_index (fst v) idx ->
    let w' := write_view w v idx a in
    read_view dflt w' v idx = a /\
    (forall idx', valid_index (fst v) idx' -> idx' <> idx -> read_view dflt w' v idx' = read_view dflt w v idx') /\
    length (stored w' b) = length (stored w b) /\
    (forall b', b' <> b -> stored w' b' = stored w b').
  Proof.
    intros I Hin Hv. cbv zeta.
    destruct (i_iss keqb _ _ _ I _ _ Hin) as (Ho & Hlt & Hs & arr & Ha & Hz).
    pose proof (row_major_lt _ _ Hv) as Hr.
    assert (Hheap : nth (snd v) (wheap (write_view w v idx a)) [] = upd (Z.to_nat (row_major (fst v) idx)) a arr).
    { unfold write_view. cbn [wheap]. rewrite (nth_error_nth _ _ [] Ha), valid_row_major by auto.
      apply nth_upd_same. eapply nth_error_lt; eauto. }
    split; [|split; [|split]].
    - unfold read_view. rewrite Hheap, valid_row_major by auto. apply nth_upd_same. lia.
    - intros idx' Hv' Hne. unfold read_view. rewrite Hheap, (nth_error_nth _ _ [] Ha), valid_row_major by auto.
      apply nth_upd_other. intros E. apply Hne. pose proof (row_major_lt _ _ Hv').
      apply (row_major_inj (fst v)); auto. lia.
    - destruct (exists_buf w b Hlt) as [x Hx].
      rewrite !stored_contents, (write_contents keqb w issued own b v idx a b x I Hin Hx).
      destruct (Nat.eqb (snd v) (braw x)); auto. apply upd_length.
    - intros b' Hne. destruct (nth_error (wbufs w) b') as [x|] eqn:Hx.
      + rewrite !stored_contents, (write_contents keqb w issued own b v idx a b' x I Hin Hx).
        destruct (Nat.eqb (snd v) (braw x)) eqn:E; auto. apply Nat.eqb_eq in E.
        destruct (i_buf keqb _ _ _ I _ _ Hx) as (Ho' & _). congruence.
      + unfold stored. cbn [write_view wbufs]. now rewrite Hx.
  Qed.

  Lemma grows_length (w w' : @world A K) issued own issued' own' b : inv keqb w issued own ->
    inv keqb w' issued' own' -> grows keqb w w' -> exists_buffer w b ->
    (length (stored w b) <= length (stored w' b))%nat.
  Proof.
    intros I I' [G _] Hb. destruct (exists_buf w b Hb) as [x Hx]. destruct (G _ _ Hx) as (x' & H1 & _ & H2 & _).
    pose proof (stored_length w issued own b x I Hx). pose proof (stored_length w' issued' own' b x' I' H1). lia.
  Qed.

  Lemma no_write_ok (ops : list (@op A K)) : Forall no_write ops ->
    forallb (fun o => negb (is_write o)) ops = true.
  Proof.
    induction 1 as [|o ops H _ IH]; auto. cbn [forallb]. rewrite IH, andb_true_r.
    destruct o; auto. exfalso. eapply H; eauto.
  Qed.
End C23.

Lemma C23_proof : C23_statement.
Proof.
  intros A K keqb dflt Hk ops Hops. cbv zeta.
  destruct (reach_inv (A := A) keqb Hk ops Hops) as [own I].
  destruct (run keqb (world0, []) ops) as [w issued]. cbn [fst snd] in *.
  split; [|split; [|split]].
  - intros b sh junk Hb Hs. now apply (get_view_full keqb dflt w issued own).
  - intros b n junk Hb. destruct (exists_buf w b Hb) as [x Hx].
    destruct (expand_inv keqb w issued own b n junk I) as [own' I'].
    destruct (expand_cap w b n junk x Hx) as (x' & H1 & H2 & _).
    split; [rewrite (stored_length keqb _ issued own' b x' I' H1); lia|]. split.
    + apply extends_stored; auto. eapply expand_extends; eauto.
    + intros b' Hne. eapply stored_same; eauto; [apply expand_heap|]. now apply expand_others.
  - intros k b v idx a Hn Hv. cbn [do_op]. rewrite Hn. rewrite (proj2 (in_bounds_ok _ _) Hv). cbn [fst].
    apply (write_full keqb dflt w issued own); auto. eapply nth_error_In; eauto.
  - intros ops' b Hops' Hb.
    pose proof (run_inv keqb Hk ops' w issued own I Hops') as R.
    destruct (run keqb (w, issued) ops') as [w2 is2]. cbn [fst].
    destruct R as ((own2 & I2) & G & X & _). split.
    + eapply grows_length; eauto.
    + intros Hw. apply extends_stored; auto. apply X. now apply no_write_ok.
Qed.

Theorem C23_contents_and_views : C23_statement.
Proof. exact C23_proof. Qed.

Example C23_example :
  let junk := fun i => 100 + i in
  let h := run Z.eqb (world0 (A := Z), [])
             [ORequest 1 11 0 junk; OGet 0 [2; 2] junk; OWrite 0 [1; 0] 7; OGet 0 [2; 3] junk] in
  good_history (A := Z) (K := Z) [ORequest 1 11 0 junk; OGet 0 [2; 2] junk; OWrite 0 [1; 0] 7; OGet 0 [2; 3] junk] /\
  stored (fst h) 0 = [100; 101; 7; 103; 104; 105] /\
  read_view 0 (fst h) ([2; 3], 2%nat) [0; 2] = 7.
Proof. split; [repeat constructor; lia|]. split; reflexivity. Qed.

(** * C24 *)

(** A view [v1] obtained from buffer [b], anything ([ops2]), a write through
    [v1], no further writes ([ops3]), a view [v2] of the same buffer: it shows the
    written element.  [extra] restricts the situation after [ops2]. *)
Definition C24_general (extra : forall A K, @world A K -> @world A K -> nat -> Prop) : Prop :=
  forall (A K : Type) (keqb : K -> K -> bool) (dflt : A), (forall a b, keqb a b = true <-> a = b) ->
  forall ops1 ops2 ops3 b sh1 sh2 idx1 idx2 a junk1 junk2,
  good_history ops1 -> good_history ops2 -> good_history ops3 -> Forall no_write ops3 ->
  good_shape sh1 -> good_shape sh2 -> valid_index sh1 idx1 -> valid_index sh2 idx2 ->
  row_major sh1 idx1 = row_major sh2 idx2 ->
  let h1 := run keqb (world0 (A := A), []) ops1 in
  exists_buffer (fst h1) b ->
  let h2 := do_op keqb h1 (OGet b sh1 junk1) in
  let h3 := run keqb h2 ops2 in
  extra A K (fst h2) (fst h3) b ->
  let h4 := do_op keqb h3 (OWrite (length (snd h1)) idx1 a) in
  let h5 := run keqb h4 ops3 in
  exists w v2, get_view (fst h5) b sh2 junk2 = (w, Some v2) /\ read_view dflt w v2 idx2 = a.

Definition C24_statement : Prop := C24_general (fun _ _ _ _ _ => True).

(** What holds: provided the buffer is not enlarged between obtaining [v1] and
    the write. *)
Definition C24_partial_statement : Prop :=
  C24_general (fun A K w w' b => length (stored w' b) = length (stored w b)).

(** And otherwise the write is lost: it leaves the buffer's contents as they
    were. *)
Definition C24_lost_statement : Prop :=
  forall (A K : Type) (keqb : K -> K -> bool), (forall a b, keqb a b = true <-> a = b) ->
  forall ops1 ops2 b sh1 idx1 a junk1,
  good_history ops1 -> good_history ops2 -> good_shape sh1 ->
  let h1 := run keqb (world0 (A := A), []) ops1 in
  exists_buffer (fst h1) b ->
  let h2 := do_op keqb h1 (OGet b sh1 junk1) in
  let h3 := run keqb h2 ops2 in
  length (stored (fst h3) b) <> length (stored (fst h2) b) ->
  let h4 := do_op keqb h3 (OWrite (length (snd h1)) idx1 a) in
  stored (fst h4) b = stored (fst h3) b.

Section C24.
  Context {A K : Type} (keqb : K -> K -> bool).
  Hypothesis keqb_ok : forall a b, keqb a b = true <-> a = b.

  (** Arrays keep their length. *)
  Definition same_arrays (w w' : @world A K) : Prop :=
    forall j arr, nth_error (wheap w) j = Some arr ->
      exists arr', nth_error (wheap w') j = Some arr' /\ length arr' = length arr.

  Lemma same_arrays_app (w w' : @world A K) : (exists more, wheap w' = wheap w ++ more) -> same_arrays w w'.
  Proof. intros [more E] j arr H. exists arr. rewrite E. split; auto. now apply nth_error_app_old. Qed.

  Lemma new_buffers_heap k : forall (w : @world A K) dtype cap junk,
    exists more, wheap (fst (new_buffers k w dtype cap junk)) = wheap w ++ more.
  Proof.
    induction k as [|k IH]; intros w dtype cap junk; cbn [new_buffers new_buffer].
    - exists []. now rewrite app_nil_r.
    - match goal with |- context [new_buffers k ?w1 dtype cap junk] =>
        destruct (IH w1 dtype cap junk) as [more E]; destruct (new_buffers k w1 dtype cap junk) as [w2 l] end.
      cbn [fst wheap] in *. rewrite E, <- app_assoc. eauto.
  Qed.

  Lemma step_arrays (h : @hist A K) o : same_arrays (fst h) (fst (do_op keqb h o)).
  Proof.
    destruct h as [w issued]. destruct o as [n dtype cap junk|b n junk|b sh junk|k idx a]; cbn [do_op fst].
    - unfold request_buffers.
      match goal with |- context [new_buffers ?m w dtype cap junk] =>
        pose proof (new_buffers_heap m w dtype cap junk) as G; destruct (new_buffers m w dtype cap junk) as [w1 l] end.
      cbn [fst] in *. apply same_arrays_app. exact G.
    - apply same_arrays_app, expand_heap.
    - pose proof (get_view_heap w b sh junk) as G. destruct (get_view w b sh junk) as [w1 [v|]]; now apply same_arrays_app.
    - assert (N : same_arrays w w) by (apply same_arrays_app; exists []; now rewrite app_nil_r).
      destruct (nth_error issued k) as [[b v]|]; auto. destruct (in_bounds (fst v) idx); auto.
      intros j arr H. cbn [fst write_view wheap].
      destruct (Nat.eq_dec (snd v) j) as [<-|Hne].
      + eexists. split; [apply nth_error_upd_same; eapply nth_error_lt; eauto|].
        rewrite upd_length. now rewrite (nth_error_nth _ _ [] H).
      + exists arr. rewrite nth_error_upd_other; auto.
  Qed.

  Lemma run_arrays ops : forall h : @hist A K, same_arrays (fst h) (fst (run keqb h ops)).
  Proof.
    induction ops as [|o ops IH]; intros h; cbn [run fold_left].
    - intros j arr H. eauto.
    - change (fold_left (do_op keqb) ops (do_op keqb h o)) with (run keqb (do_op keqb h o) ops).
      intros j arr H. destruct (step_arrays h o j arr H) as (a1 & H1 & L1).
      destruct (IH (do_op keqb h o) j a1 H1) as (a2 & H2 & L2). exists a2. split; auto. congruence.
  Qed.

  (** The situation after obtaining the view and running [ops2]. *)
  Lemma C24_setup ops1 ops2 b sh1 junk1 :
    good_history ops1 -> good_history ops2 -> good_shape sh1 ->
    let h1 := run keqb (world0 (A := A), []) ops1 in
    exists_buffer (fst h1) b ->
    let h2 := do_op keqb h1 (OGet b sh1 junk1) in
    let h3 := run keqb h2 ops2 in
    exists x2 x3 own2 own3,
      inv keqb (fst h2) (snd h2) own2 /\ inv keqb (fst h3) (snd h3) own3 /\
      nth_error (wbufs (fst h2)) b = Some x2 /\ nth_error (wbufs (fst h3)) b = Some x3 /\
      nth_error (snd h3) (length (snd h1)) = Some (b, (sh1, braw x2)) /\
      zprod sh1 <= bcap x2 /\
      (bcap x3 = bcap x2 <-> braw x3 = braw x2).
  Proof.
    intros Ho1 Ho2 Hs. cbv zeta. intros Hb.
    destruct (reach_inv (A := A) keqb keqb_ok ops1 Ho1) as [own1 I1].
    destruct (run keqb (world0, []) ops1) as [w1 is1]. cbn [fst snd] in *.
    destruct (get_view_spec keqb w1 is1 own1 b sh1 junk1 I1 Hb Hs) as (w2 & x2 & own2 & E & F1 & I2 & F3 & F4 & F5).
    cbn [do_op]. rewrite E. cbn [fst snd].
    match goal with |- context [run keqb ?h ops2] =>
      pose proof (run_inv keqb keqb_ok ops2 (fst h) (snd h) own2 I2 Ho2) as R;
      pose proof (run_arrays ops2 h) as SA; cbn [fst snd] in R;
      destruct (run keqb h ops2) as [w3 is3] end. cbn [fst snd] in *.
    destruct R as ((own3 & I3) & G & _ & new & ->).
    destruct (g_buf keqb _ _ G _ _ F1) as (x3 & H1 & _ & H2 & H3).
    exists x2, x3, own2, own3. repeat (split; [now auto|]).
    split; [now rewrite <- app_assoc, nth_error_app2, Nat.sub_diag by lia|].
    split; auto. split; auto. intros Er.
    destruct (i_buf keqb _ _ _ I2 _ _ F1) as (_ & (ar2 & A2 & L2) & _).
    destruct (i_buf keqb _ _ _ I3 _ _ H1) as (_ & (ar3 & A3 & L3) & _).
    destruct (SA _ _ A2) as (ar3' & A3' & L3'). rewrite <- Er, A3 in A3'. injection A3' as <-. lia.
  Qed.
End C24.

Lemma C24_partial_proof : C24_partial_statement.
Proof.
  intros A K keqb dflt Hk ops1 ops2 ops3 b sh1 sh2 idx1 idx2 a junk1 junk2 Ho1 Ho2 Ho3 Hw Hs1 Hs2 Hv1 Hv2 Er.
  cbv zeta. intros Hb Hcap.
  destruct (C24_setup keqb Hk ops1 ops2 b sh1 junk1 Ho1 Ho2 Hs1 Hb)
    as (x2 & x3 & own2 & own3 & I2 & I3 & B2 & B3 & Hn & Hz & Hiff).
  set (h1 := run keqb (world0, []) ops1) in *. set (h2 := do_op keqb h1 (OGet b sh1 junk1)) in *.
  set (h3 := run keqb h2 ops2) in *.
  assert (Ec : bcap x3 = bcap x2).
  { rewrite <- (stored_length keqb (fst h3) (snd h3) own3 b x3 I3 B3).
    rewrite <- (stored_length keqb (fst h2) (snd h2) own2 b x2 I2 B2). now rewrite Hcap. }
  pose proof (proj1 Hiff Ec) as Ebr.
  destruct h3 as [w3 is3]. cbn [fst snd] in *. cbn [do_op]. rewrite Hn. cbn [fst].
  rewrite (proj2 (in_bounds_ok _ _) Hv1).
  pose proof (nth_error_In _ _ Hn) as Hin.
  pose proof (write_inv keqb w3 is3 own3 b (sh1, braw x2) idx1 a I3 Hin) as I4.
  pose proof (write_contents keqb w3 is3 own3 b (sh1, braw x2) idx1 a b x3 I3 Hin B3) as C4.
  cbn [snd fst] in C4. rewrite Ebr, Nat.eqb_refl in C4.
  set (w4 := write_view w3 (sh1, braw x2) idx1 a) in *.
  pose proof (run_inv keqb Hk ops3 w4 is3 own3 I4 Ho3) as R.
  destruct (run keqb (w4, is3) ops3) as [w5 is5]. cbn [fst].
  destruct R as ((own5 & I5) & G5 & X5 & _). specialize (X5 (no_write_ok _ Hw)).
  assert (Hb4 : exists_buffer w4 b) by (unfold exists_buffer, w4; cbn [write_view wbufs]; eapply nth_error_lt; eauto).
  destruct (extends_stored w4 w5 b X5 Hb4) as [e5 E5].
  assert (Hb5 : exists_buffer w5 b) by (unfold exists_buffer in *; destruct X5 as [L _]; lia).
  destruct (get_view_full keqb dflt w5 is5 own5 b sh2 junk2 I5 Hb5 Hs2) as (w6 & arr & E & _ & Hr & ((e6 & E6) & _)).
  exists w6, (sh2, arr). split; auto. rewrite Hr by auto.
  pose proof (row_major_bound _ _ Hv1) as Hbd.
  pose proof (stored_length keqb w3 is3 own3 b x3 I3 B3) as L3. rewrite stored_contents in L3.
  rewrite E6, E5, stored_contents, C4, valid_row_major by auto.
  rewrite <- app_assoc, app_nth1 by (rewrite upd_length; lia).
  rewrite <- Er. apply nth_upd_same. lia.
Qed.

Theorem C24_attached_partial : C24_partial_statement.
Proof. exact C24_partial_proof. Qed.

Lemma C24_lost_proof : C24_lost_statement.
Proof.
  intros A K keqb Hk ops1 ops2 b sh1 idx1 a junk1 Ho1 Ho2 Hs1. cbv zeta. intros Hb Hne.
  destruct (C24_setup keqb Hk ops1 ops2 b sh1 junk1 Ho1 Ho2 Hs1 Hb)
    as (x2 & x3 & own2 & own3 & I2 & I3 & B2 & B3 & Hn & Hz & Hiff).
  set (h1 := run keqb (world0, []) ops1) in *. set (h2 := do_op keqb h1 (OGet b sh1 junk1)) in *.
  set (h3 := run keqb h2 ops2) in *.
  pose proof (stored_length keqb (fst h3) (snd h3) own3 b x3 I3 B3).
  pose proof (stored_length keqb (fst h2) (snd h2) own2 b x2 I2 B2).
  destruct h3 as [w3 is3]. cbn [fst snd] in *. cbn [do_op]. rewrite Hn. cbn [fst].
  destruct (in_bounds sh1 idx1); auto. cbn [fst].
  rewrite !stored_contents, (write_contents keqb w3 is3 own3 b (sh1, braw x2) idx1 a b x3 I3 (nth_error_In _ _ Hn) B3).
  cbn [snd fst]. destruct (Nat.eqb (braw x2) (braw x3)) eqn:E; auto.
  apply Nat.eqb_eq in E. symmetry in E. apply Hiff in E. lia.
Qed.

Theorem C24_write_lost_after_growth : C24_lost_statement.
Proof. exact C24_lost_proof. Qed.

(** A view of two elements, an expansion to four, a write of 7 through the old
    view: the view of three elements obtained then shows 0. *)
Theorem C24_attached_refuted : ~ C24_statement.
Proof.
  intros H.
  specialize (H Z Z Z.eqb 0 Z.eqb_eq [ORequest 1 11 0 (fun _ => 0)] [OExpand 0 4 (fun _ => 0)] []
                0%nat [2] [3] [0] [0] 7 (fun _ => 0) (fun _ => 0)).
  destruct H as (w & v & E & R).
  - repeat constructor; lia.
  - repeat constructor; lia.
  - constructor.
  - constructor.
  - split; [discriminate|repeat constructor; lia].
  - split; [discriminate|repeat constructor; lia].
  - repeat constructor; lia.
  - repeat constructor; lia.
  - reflexivity.
  - unfold exists_buffer. vm_compute. lia.
  - exact I.
  - vm_compute in E. injection E as <- <-. vm_compute in R. discriminate.
Qed.

(** Hypotheses of the partial statement: the write comes before the growth. *)
Example C24_example :
  let junk := fun _ : Z => 0 in
  let h2 := run Z.eqb (world0 (A := Z), []) [ORequest 1 11 0 junk; OGet 0 [2] junk] in
  let h3 := run Z.eqb h2 [OGet 0 [2; 1] junk] in
  length (stored (fst h3) 0) = length (stored (fst h2) 0) /\
  let h5 := run Z.eqb h3 [OWrite 0 [1] 7; OExpand 0 9 junk] in
  match get_view (fst h5) 0 [1; 3] junk with
  | (w, Some v) => read_view 0 w v [0; 1] = 7
  | _ => False
  end.
Proof. split; reflexivity. Qed.

Print Assumptions C22_no_aliasing.
Print Assumptions C23_contents_and_views.
Print Assumptions C24_attached_partial.
Print Assumptions C24_write_lost_after_growth.
Print Assumptions C24_attached_refuted.
