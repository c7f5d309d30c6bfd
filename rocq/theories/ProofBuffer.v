(** Invariants of buffers and their manager over histories of operations. *)

From Verif Require Import Prelude SpecIndex ModelSlicing ProofSlicing ModelUtilities PropUtilities ModelBuffer.

(** * upd and nth_error *)

Lemma upd_length {A} i (a : A) l : length (upd i a l) = length l.
Proof. revert i; induction l; destruct i; simpl; auto. Qed.

Lemma nth_error_upd_same {A} i (a : A) l : (i < length l)%nat -> nth_error (upd i a l) i = Some a.
Proof. revert i; induction l; destruct i; simpl; intros; auto; try lia. apply IHl; lia. Qed.

Lemma nth_error_upd_other {A} i j (a : A) l : i <> j -> nth_error (upd i a l) j = nth_error l j.
Proof. revert i j; induction l; destruct i, j; simpl; intros; auto; try congruence. Qed.

Lemma nth_error_upd {A} i j (a b : A) l : nth_error (upd i a l) j = Some b ->
  (i = j /\ b = a) \/ (i <> j /\ nth_error l j = Some b).
Proof.
  intros H. destruct (Nat.eq_dec i j) as [->|Hne].
  - left. split; auto. assert (j < length l)%nat.
    { rewrite <- (upd_length j a l). apply nth_error_Some. congruence. }
    rewrite nth_error_upd_same in H by auto. congruence.
  - right. rewrite nth_error_upd_other in H by auto. auto.
Qed.

Lemma nth_error_snoc {A} (l : list A) a j b : nth_error (l ++ [a]) j = Some b ->
  nth_error l j = Some b \/ (j = length l /\ b = a).
Proof.
  intros H. destruct (Nat.lt_ge_cases j (length l)) as [Hl|Hl].
  - rewrite nth_error_app1 in H by auto. auto.
  - rewrite nth_error_app2 in H by auto. right.
    destruct (j - length l)%nat as [|n] eqn:E.
    + simpl in H. injection H as <-. split; auto. lia.
    + simpl in H. destruct n; discriminate.
Qed.

Lemma nth_error_snoc_last {A} (l : list A) a : nth_error (l ++ [a]) (length l) = Some a.
Proof. rewrite nth_error_app2 by lia. now rewrite Nat.sub_diag. Qed.

Lemma nth_error_app_old {A} (l m : list A) j b : nth_error l j = Some b -> nth_error (l ++ m) j = Some b.
Proof. intros H. rewrite nth_error_app1; auto. apply nth_error_Some. congruence. Qed.

Lemma nth_error_lt {A} (l : list A) j b : nth_error l j = Some b -> (j < length l)%nat.
Proof. intros H. apply nth_error_Some. congruence. Qed.

Lemma in_bounds_ok sh idx : in_bounds sh idx = true <-> valid_index sh idx.
Proof.
  unfold in_bounds, valid_index. revert idx. induction sh as [|n sh IH]; destruct idx as [|i idx];
    cbn [length Nat.eqb combine forallb fst snd]; split; intros H; auto; try discriminate; try (now inv H).
  - rewrite !andb_true_iff in H. destruct H as (H1 & (H2 & H3) & H4). breflect.
    constructor; [lia|]. apply IH. now rewrite H1, H4.
  - inv H. apply IH in H5. apply andb_true_iff in H5. destruct H5 as [-> ->].
    cbn [andb]. rewrite ?andb_true_r. apply andb_true_iff. split; [apply Z.leb_le|apply Z.ltb_lt]; lia.
Qed.

Section BufferProofs.
  Context {A K : Type} (keqb : K -> K -> bool).
  Hypothesis keqb_ok : forall a b, keqb a b = true <-> a = b.
  Variable dflt : A.

  Notation world := (@world A K).
  Notation buffer := (@buffer K).

  (** A shape a view can be requested for. *)
  Definition view_shape_ok (sh : list Z) : Prop := sh <> [] /\ nonneg_shape sh.

  (** [own] names, for every array, the buffer it was made for. *)
  Record inv (w : world) (issued : list (nat * view)) (own : list nat) : Prop := mkinv {
    i_len : length own = length (wheap w);
    i_buf : forall b x, nth_error (wbufs w) b = Some x ->
      nth_error own (braw x) = Some b /\
      (exists arr, nth_error (wheap w) (braw x) = Some arr /\ Z.of_nat (length arr) = bcap x) /\
      (forall sh v, dict_get zlist_eqb (bviews x) sh = Some v ->
         v = (sh, braw x) /\ view_shape_ok sh /\ zprod sh <= bcap x);
    i_iss : forall b v, In (b, v) issued ->
      nth_error own (snd v) = Some b /\ (b < length (wbufs w))%nat /\ view_shape_ok (fst v) /\
      (exists arr, nth_error (wheap w) (snd v) = Some arr /\ zprod (fst v) <= Z.of_nat (length arr));
    i_map : forall key l, dict_get keqb (wmap w) key = Some l ->
      NoDup l /\ (forall b, In b l -> exists x, nth_error (wbufs w) b = Some x /\ bdtype x = key)
  }.

  Lemma inv0 : inv world0 [] [].
  Proof.
    constructor; simpl; auto; try discriminate.
    - intros b x H. destruct b; discriminate.
    - tauto.
  Qed.

  Lemma np_empty_length n (junk : Z -> A) : length (np_empty n junk) = Z.to_nat n.
  Proof. unfold np_empty. now rewrite map_length, zrange_length. Qed.

  Lemma copy_into_length (new old : list A) : (length old <= length new)%nat ->
    length (copy_into new old) = length new.
  Proof. intros. unfold copy_into. rewrite app_length, skipn_length. lia. Qed.

  Lemma dict_get_remap (d : list (list Z * view)) (r : nat) (sh : list Z) :
    dict_get zlist_eqb (map (fun e => (fst e, (fst e, r))) d) sh =
    option_map (fun _ => (sh, r)) (dict_get zlist_eqb d sh).
  Proof.
    induction d as [|[k v] d IH]; cbn [map dict_get fst]; auto.
    destruct (zlist_eqb sh k) eqn:E; auto. apply zlist_eqb_eq in E. now subst.
  Qed.

  (** The elements a buffer stores. *)
  Definition contents (w : world) (b : nat) : list A :=
    match nth_error (wbufs w) b with
    | Some x => nth (braw x) (wheap w) []
    | None => []
    end.

  Lemma contents_some w b x arr : nth_error (wbufs w) b = Some x ->
    nth_error (wheap w) (braw x) = Some arr -> contents w b = arr.
  Proof. intros H1 H2. unfold contents. rewrite H1. now apply nth_error_nth. Qed.

  (** What one operation may do to the buffers: none disappears or changes its
      element type, and contents are only appended to. *)
  Definition extends (w w' : world) : Prop :=
    (length (wbufs w) <= length (wbufs w'))%nat /\
    (forall b x, nth_error (wbufs w) b = Some x ->
       exists x', nth_error (wbufs w') b = Some x' /\ bdtype x' = bdtype x /\
         (bcap x <= bcap x') /\
         (bcap x' = bcap x -> braw x' = braw x) /\
         (exists extra, contents w' b = contents w b ++ extra)).

  Lemma extends_refl w : extends w w.
  Proof.
    split; auto. intros b x H. exists x. repeat split; auto; try lia. exists []. now rewrite app_nil_r.
  Qed.

  Lemma extends_trans w1 w2 w3 : extends w1 w2 -> extends w2 w3 -> extends w1 w3.
  Proof.
    intros [L1 H1] [L2 H2]. split; [lia|]. intros b x H.
    destruct (H1 _ _ H) as (x2 & G1 & G2 & G3 & G4 & e1 & G5).
    destruct (H2 _ _ G1) as (x3 & F1 & F2 & F3 & F4 & e2 & F5).
    exists x3. split; auto. split; [congruence|]. split; [lia|]. split.
    - intros E. rewrite F4, G4; auto; lia.
    - exists (e1 ++ e2). now rewrite F5, G5, app_assoc.
  Qed.

  (** ** expand *)

  Lemma expand_inv w issued own b n junk : inv w issued own ->
    exists own', inv (expand w b n junk) issued own'.
  Proof.
    intros I. unfold expand, get_buf. destruct (nth_error (wbufs w) b) as [x|] eqn:Hb; [|eauto].
    destruct (n <=? bcap x) eqn:En; [eauto|]. breflect.
    destruct (i_buf _ _ _ I _ _ Hb) as (Ho & (arr & Ha & Hl) & Hv).
    rewrite (nth_error_nth _ _ [] Ha).
    assert (Hlen : length (copy_into (np_empty n junk) arr) = Z.to_nat n).
    { rewrite copy_into_length; rewrite np_empty_length; lia. }
    exists (own ++ [b]). constructor; cbn [wheap wbufs wmap].
    - rewrite !app_length. cbn [length]. now rewrite (i_len _ _ _ I).
    - intros b' x' H. apply nth_error_upd in H. destruct H as [[<- ->]|[Hne H]]; cbn [braw bcap bviews].
      + split; [|split].
        * rewrite <- (i_len _ _ _ I). apply nth_error_snoc_last.
        * eexists. split; [apply nth_error_snoc_last|]. rewrite Hlen. lia.
        * intros sh v. rewrite dict_get_remap. intros E.
          destruct (dict_get zlist_eqb (bviews x) sh) as [v0|] eqn:E0; [|discriminate].
          cbn [option_map] in E. injection E as <-. destruct (Hv _ _ E0) as (_ & H2 & H3).
          split; [auto|split; auto; lia].
      + destruct (i_buf _ _ _ I _ _ H) as (Ho' & (arr' & Ha' & Hl') & Hv').
        split; [now apply nth_error_app_old|]. split; auto.
        exists arr'. split; auto. now apply nth_error_app_old.
    - intros b' v H. destruct (i_iss _ _ _ I _ _ H) as (H1 & H2 & H3 & arr' & H4 & H5).
      split; [now apply nth_error_app_old|]. rewrite upd_length. split; auto. split; auto.
      exists arr'. split; auto. now apply nth_error_app_old.
    - intros key l H. destruct (i_map _ _ _ I _ _ H) as (H1 & H2). split; auto.
      intros b' Hin. destruct (H2 _ Hin) as (x' & H3 & H4).
      destruct (Nat.eq_dec b b') as [<-|Hne].
      + eexists. split; [apply nth_error_upd_same; eapply nth_error_lt; eauto|]. cbn [bdtype]. congruence.
      + exists x'. rewrite nth_error_upd_other; auto.
  Qed.

  Lemma expand_extends w issued own b n junk : inv w issued own -> extends w (expand w b n junk).
  Proof.
    intros I. unfold expand, get_buf. destruct (nth_error (wbufs w) b) as [x|] eqn:Hb; [|apply extends_refl].
    destruct (n <=? bcap x) eqn:En; [apply extends_refl|]. breflect.
    destruct (i_buf _ _ _ I _ _ Hb) as (Ho & (arr & Ha & Hl) & Hv).
    rewrite (nth_error_nth _ _ [] Ha).
    split; cbn [wbufs]; [now rewrite upd_length|].
    intros b' x' H. destruct (Nat.eq_dec b b') as [<-|Hne].
    - rewrite Hb in H. injection H as <-.
      eexists. split; [apply nth_error_upd_same; eapply nth_error_lt; eauto|].
      cbn [bdtype bcap braw]. split; auto. split; [lia|]. split; [intros; lia|].
      exists (skipn (length arr) (np_empty n junk)).
      rewrite (contents_some w b x arr Hb Ha).
      erewrite contents_some; cbn [wbufs wheap].
      2:{ apply nth_error_upd_same. eapply nth_error_lt; eauto. }
      2:{ cbn [braw]. apply nth_error_snoc_last. }
      reflexivity.
    - exists x'. rewrite nth_error_upd_other by auto. split; auto. split; auto. split; [lia|]. split; auto.
      exists []. rewrite app_nil_r. destruct (i_buf _ _ _ I _ _ H) as (_ & (arr' & Ha' & _) & _).
      rewrite (contents_some w b' x' arr' H Ha').
      apply contents_some with (x := x'); cbn [wbufs wheap].
      + now rewrite nth_error_upd_other.
      + now apply nth_error_app_old.
  Qed.

  Lemma expand_cap (w : world) b n junk x : nth_error (wbufs w) b = Some x ->
    exists x', nth_error (wbufs (expand w b n junk)) b = Some x' /\ bcap x' = Z.max n (bcap x) /\
      (forall sh, dict_get zlist_eqb (bviews x) sh = None -> dict_get zlist_eqb (bviews x') sh = None).
  Proof.
    intros H. unfold expand, get_buf. rewrite H. destruct (n <=? bcap x) eqn:E; breflect.
    - exists x. split; auto. split; auto. lia.
    - eexists. split; [cbn [wbufs]; apply nth_error_upd_same; eapply nth_error_lt; eauto|].
      cbn [bcap bviews]. split; [lia|]. intros sh Hs. rewrite dict_get_remap, Hs. reflexivity.
  Qed.

  Lemma expand_others (w : world) b n junk b' : b' <> b ->
    nth_error (wbufs (expand w b n junk)) b' = nth_error (wbufs w) b'.
  Proof.
    intros H. unfold expand. destruct (get_buf w b); auto. destruct (n <=? bcap b0); auto.
    cbn [wbufs]. apply nth_error_upd_other. auto.
  Qed.

  Lemma expand_map (w : world) b n junk : wmap (expand w b n junk) = wmap w.
  Proof. unfold expand. destruct (get_buf w b); auto. destruct (n <=? bcap b0); auto. Qed.

  (** ** get_view *)

  Lemma set_view_inv w issued own b x sh : inv w issued own -> nth_error (wbufs w) b = Some x ->
    view_shape_ok sh -> zprod sh <= bcap x ->
    let w' := set_buf w b (mkbuf (bdtype x) (bcap x) (braw x)
                             (dict_set zlist_eqb (bviews x) sh (sh, braw x))) in
    inv w' (issued ++ [(b, (sh, braw x))]) own /\ extends w w'.
  Proof.
    intros I Hb Hsh Hz. cbv zeta.
    destruct (i_buf _ _ _ I _ _ Hb) as (Ho & (arr & Ha & Hl) & Hv).
    pose proof (nth_error_lt _ _ _ Hb) as Hlt.
    split.
    - constructor; cbn [set_buf wheap wbufs wmap].
      + apply (i_len _ _ _ I).
      + intros b' x' H. apply nth_error_upd in H. destruct H as [[<- ->]|[Hne H]]; cbn [braw bcap bviews].
        * split; auto. split; [eauto|]. intros sh' v E.
          destruct (list_eq_dec Z.eq_dec sh' sh) as [->|Hns].
          -- rewrite (get_set_same zlist_eqb zlist_eqb_eq) in E. injection E as <-. auto.
          -- rewrite (get_set_other zlist_eqb zlist_eqb_eq) in E by auto. eauto.
        * apply (i_buf _ _ _ I _ _ H).
      + intros b' v H. rewrite upd_length. apply in_app_or in H. destruct H as [H|[H|[]]].
        * apply (i_iss _ _ _ I _ _ H).
        * injection H as <- <-. cbn [fst snd]. split; auto. split; auto. split; auto.
          exists arr. split; auto. lia.
      + intros key l H. destruct (i_map _ _ _ I _ _ H) as (H1 & H2). split; auto.
        intros b' Hin. destruct (H2 _ Hin) as (x' & H3 & H4).
        destruct (Nat.eq_dec b b') as [<-|Hne].
        * eexists. split; [apply nth_error_upd_same; auto|]. cbn [bdtype]. congruence.
        * exists x'. rewrite nth_error_upd_other; auto.
    - split; cbn [set_buf wbufs]; [now rewrite upd_length|].
      intros b' x' H. destruct (Nat.eq_dec b b') as [<-|Hne].
      + rewrite Hb in H. injection H as <-. eexists. split; [apply nth_error_upd_same; auto|].
        cbn [bdtype bcap braw]. split; auto. split; [lia|]. split; auto. exists []. rewrite app_nil_r.
        rewrite (contents_some w b x arr Hb Ha).
        eapply contents_some; cbn [set_buf wbufs wheap]; [apply nth_error_upd_same; auto|auto].
      + exists x'. rewrite nth_error_upd_other by auto. split; auto. split; auto. split; [lia|]. split; auto.
        exists []. rewrite app_nil_r. unfold contents. cbn [set_buf wbufs wheap].
        rewrite nth_error_upd_other by auto. reflexivity.
  Qed.

  Lemma nonneg_existsb sh : existsb (fun n => n <? 0) sh = false <-> nonneg_shape sh.
  Proof.
    unfold nonneg_shape. induction sh as [|n sh IH]; cbn [existsb].
    - split; auto.
    - rewrite orb_false_iff, IH. split.
      + intros [H1 H2]. breflect. constructor; auto.
      + intros H. inv H. split; auto. apply Z.ltb_ge. lia.
  Qed.

  Lemma inv_issue w issued own b x v : inv w issued own -> nth_error (wbufs w) b = Some x ->
    dict_get zlist_eqb (bviews x) (fst v) = Some v -> inv w (issued ++ [(b, v)]) own.
  Proof.
    intros I Hb Hd. destruct (i_buf _ _ _ I _ _ Hb) as (Ho & (arr & Ha & Hl) & Hv).
    destruct (Hv _ _ Hd) as (Ev & Hs & Hz).
    constructor; try apply I. intros b' v' H. apply in_app_or in H. destruct H as [H|[H|[]]].
    - apply (i_iss _ _ _ I _ _ H).
    - injection H as <- <-. rewrite Ev; cbn [snd fst]. split; auto. split; [eapply nth_error_lt; eauto|].
      split; auto. exists arr. split; auto. rewrite Ev in Hz. cbn [fst] in Hz. lia.
  Qed.

  (** A successful request: the view has the shape, is a view of the buffer's
      current array and fits into it. *)
  Lemma get_view_spec w issued own b sh junk : inv w issued own ->
    (b < length (wbufs w))%nat -> view_shape_ok sh ->
    exists w' x' own', get_view w b sh junk = (w', Some (sh, braw x')) /\
      nth_error (wbufs w') b = Some x' /\
      inv w' (issued ++ [(b, (sh, braw x'))]) own' /\ extends w w' /\
      zprod sh <= bcap x' /\ wmap w' = wmap w.
  Proof.
    intros I Hlt Hsh. unfold get_view, get_buf.
    destruct (nth_error (wbufs w) b) as [x|] eqn:Hb; [|apply nth_error_None in Hb; lia].
    destruct (i_buf _ _ _ I _ _ Hb) as (Ho & (arr & Ha & Hl) & Hv).
    destruct (dict_get zlist_eqb (bviews x) sh) as [v|] eqn:Hd.
    - destruct (Hv _ _ Hd) as (-> & _ & Hz). exists w, x, own. split; auto. split; auto. split.
      + eapply inv_issue; eauto.
      + split; [apply extends_refl|]. split; auto.
    - destruct sh as [|n0 sh0] eqn:Esh; [destruct Hsh; congruence|]. rewrite <- Esh in *. clear Esh n0 sh0.
      destruct Hsh as [Hne Hnn]. rewrite (proj2 (nonneg_existsb sh) Hnn).
      destruct (bcap x <? zprod sh) eqn:Ec; breflect.
      + destruct (expand_inv w issued own b (zprod sh) junk I) as [own' I'].
        pose proof (expand_extends w issued own b (zprod sh) junk I) as X.
        destruct (expand_cap w b (zprod sh) junk x Hb) as (x1 & H1 & H2 & _).
        rewrite H1.
        destruct (set_view_inv _ issued own' b x1 sh I' H1 (conj Hne Hnn)) as [J1 J2]; [lia|].
        eexists. exists (mkbuf (bdtype x1) (bcap x1) (braw x1) (dict_set zlist_eqb (bviews x1) sh (sh, braw x1))), own'.
        split; [reflexivity|]. cbn [braw].
        split; [cbn [set_buf wbufs]; apply nth_error_upd_same; eapply nth_error_lt; eauto|].
        split; [exact J1|]. split; [eapply extends_trans; eauto|]. cbn [bcap]. split; [lia|].
        cbn [set_buf wmap]. apply expand_map.
      + rewrite Hb.
        destruct (set_view_inv _ issued own b x sh I Hb (conj Hne Hnn)) as [J1 J2]; [lia|].
        eexists. exists (mkbuf (bdtype x) (bcap x) (braw x) (dict_set zlist_eqb (bviews x) sh (sh, braw x))), own.
        split; [reflexivity|]. cbn [braw].
        split; [cbn [set_buf wbufs]; apply nth_error_upd_same; eapply nth_error_lt; eauto|].
        split; [exact J1|]. split; [exact J2|]. cbn [bcap]. split; [lia|]. reflexivity.
  Qed.

  (** A request that fails changes nothing. *)
  Lemma get_view_fail w issued own b sh junk : inv w issued own ->
    ((b < length (wbufs w))%nat /\ view_shape_ok sh) \/ get_view w b sh junk = (w, None).
  Proof.
    intros I. unfold get_view, get_buf. destruct (nth_error (wbufs w) b) as [x|] eqn:Hb; auto.
    destruct (dict_get zlist_eqb (bviews x) sh) as [v|] eqn:Hd.
    - left. destruct (i_buf _ _ _ I _ _ Hb) as (_ & _ & Hv). destruct (Hv _ _ Hd) as (_ & Hs & _).
      split; auto. eapply nth_error_lt; eauto.
    - destruct sh as [|n0 sh0] eqn:Esh; auto. rewrite <- Esh.
      destruct (existsb (fun n => n <? 0) sh) eqn:E; auto.
      left. split; [eapply nth_error_lt; eauto|]. split; [subst; discriminate|]. now apply nonneg_existsb.
  Qed.

  (** ** write_view *)

  Lemma write_inv w issued own b v idx a : inv w issued own -> In (b, v) issued ->
    inv (write_view w v idx a) issued own.
  Proof.
    intros I Hin. unfold write_view. destruct (i_iss _ _ _ I _ _ Hin) as (Ho & Hlt & Hs & arr & Ha & Hz).
    rewrite (nth_error_nth _ _ [] Ha).
    set (arr' := upd _ a arr). assert (Hl' : length arr' = length arr) by apply upd_length.
    assert (G : forall j ar, nth_error (wheap w) j = Some ar ->
              exists ar', nth_error (upd (snd v) arr' (wheap w)) j = Some ar' /\ length ar' = length ar).
    { intros j ar Hj. destruct (Nat.eq_dec (snd v) j) as [<-|Hne].
      - exists arr'. split; [|congruence]. apply nth_error_upd_same. eapply nth_error_lt; eauto.
      - exists ar. rewrite nth_error_upd_other; auto. }
    constructor; cbn [wheap wbufs wmap].
    - rewrite upd_length. apply (i_len _ _ _ I).
    - intros b' x H. destruct (i_buf _ _ _ I _ _ H) as (H1 & (ar & H2 & H3) & H4).
      split; auto. split; auto. destruct (G _ _ H2) as (ar' & G1 & G2). exists ar'. split; auto. lia.
    - intros b' v' H. destruct (i_iss _ _ _ I _ _ H) as (H1 & H2 & H3 & ar & H4 & H5).
      split; auto. split; auto. split; auto. destruct (G _ _ H4) as (ar' & G1 & G2). exists ar'. split; auto. lia.
    - apply (i_map _ _ _ I).
  Qed.

  (** A write through a view of the buffer's current array changes one element
      of the contents, any other write leaves the contents as they are. *)
  Lemma write_contents w issued own b v idx a b' x : inv w issued own -> In (b, v) issued ->
    nth_error (wbufs w) b' = Some x ->
    contents (write_view w v idx a) b' =
    if Nat.eqb (snd v) (braw x)
    then upd (Z.to_nat (cartesian_index_c (fst v) idx)) a (contents w b') else contents w b'.
  Proof.
    intros I Hin Hb. destruct (i_iss _ _ _ I _ _ Hin) as (Ho & Hlt & Hs & arr & Ha & Hz).
    destruct (i_buf _ _ _ I _ _ Hb) as (Ho' & (ar & H2 & H3) & H4).
    rewrite (contents_some w b' x ar Hb H2).
    unfold contents, write_view. cbn [wbufs wheap]. rewrite Hb.
    destruct (Nat.eqb (snd v) (braw x)) eqn:E.
    - apply Nat.eqb_eq in E. rewrite E in *. rewrite H2 in Ha. injection Ha as <-.
      rewrite (nth_error_nth _ _ [] H2). apply nth_error_nth. apply nth_error_upd_same.
      eapply nth_error_lt; eauto.
    - apply Nat.eqb_neq in E. apply nth_error_nth. now rewrite nth_error_upd_other.
  Qed.

  (** ** request_buffers *)

  Lemma new_buffers_spec k : forall w issued own dtype cap junk, inv w issued own -> 0 <= cap ->
    exists own', let (w', l) := new_buffers k w dtype cap junk in
      inv w' issued own' /\ extends w w' /\ wmap w' = wmap w /\
      l = seq (length (wbufs w)) k /\ length (wbufs w') = (length (wbufs w) + k)%nat /\
      (forall b, (length (wbufs w) <= b < length (wbufs w) + k)%nat ->
         exists x, nth_error (wbufs w') b = Some x /\ bdtype x = dtype).
  Proof.
    induction k as [|k IH]; intros w issued own dtype cap junk I Hc; cbn [new_buffers].
    - exists own. split; auto. split; [apply extends_refl|]. repeat split; auto; intros; lia.
    - cbn [new_buffer].
      set (w1 := mkw _ _ _).
      assert (I1 : inv w1 issued (own ++ [length (wbufs w)])).
      { constructor; unfold w1; cbn [wheap wbufs wmap].
        - rewrite !app_length. cbn [length]. now rewrite (i_len _ _ _ I).
        - intros b x H. apply nth_error_snoc in H. destruct H as [H|[-> ->]].
          + destruct (i_buf _ _ _ I _ _ H) as (H1 & (ar & H2 & H3) & H4).
            split; [now apply nth_error_app_old|]. split; auto.
            exists ar. split; auto. now apply nth_error_app_old.
          + cbn [braw bcap bviews]. split; [rewrite <- (i_len _ _ _ I); apply nth_error_snoc_last|].
            split; [|discriminate]. eexists. split; [apply nth_error_snoc_last|].
            rewrite np_empty_length. lia.
        - intros b v H. destruct (i_iss _ _ _ I _ _ H) as (H1 & H2 & H3 & ar & H4 & H5).
          rewrite app_length. split; [now apply nth_error_app_old|]. split; [simpl; lia|]. split; auto.
          exists ar. split; auto. now apply nth_error_app_old.
        - intros key l H. destruct (i_map _ _ _ I _ _ H) as (H1 & H2). split; auto.
          intros b Hin. destruct (H2 _ Hin) as (x & H3 & H4). exists x. split; auto. now apply nth_error_app_old. }
      assert (X1 : extends w w1).
      { split; unfold w1; cbn [wbufs]; [rewrite app_length; lia|].
        intros b x H. exists x. split; [now apply nth_error_app_old|]. split; auto. split; [lia|]. split; auto.
        exists []. rewrite app_nil_r. destruct (i_buf _ _ _ I _ _ H) as (_ & (ar & H2 & _) & _).
        rewrite (contents_some w b x ar H H2). apply contents_some with (x := x); cbn [wbufs wheap].
        - now apply nth_error_app_old.
        - now apply nth_error_app_old. }
      destruct (IH w1 issued _ dtype cap junk I1 Hc) as [own' G].
      destruct (new_buffers k w1 dtype cap junk) as [w2 l]. exists own'.
      destruct G as (G1 & G2 & G3 & G4 & G5 & G6).
      assert (L1 : length (wbufs w1) = S (length (wbufs w))) by (unfold w1; cbn [wbufs]; rewrite app_length; simpl; lia).
      split; auto. split; [eapply extends_trans; eauto|]. split; [now rewrite G3|].
      split; [rewrite G4, L1; reflexivity|]. split; [lia|].
      intros b Hb. destruct (Nat.eq_dec b (length (wbufs w))) as [->|Hne].
      + destruct G2 as [_ G2]. destruct (G2 (length (wbufs w)) (mkbuf dtype cap (length (wheap w)) [])) as (x' & E1 & E2 & _).
        * unfold w1; cbn [wbufs]. apply nth_error_snoc_last.
        * exists x'. split; auto.
      + apply G6. lia.
  Qed.

  Definition have (w : world) (key : K) : list nat :=
    match dict_get keqb (wmap w) key with Some l => l | None => [] end.

  Lemma have_ok w issued own key : inv w issued own ->
    NoDup (have w key) /\ (forall b, In b (have w key) -> exists x, nth_error (wbufs w) b = Some x /\ bdtype x = key).
  Proof.
    intros I. unfold have. destruct (dict_get keqb (wmap w) key) eqn:E.
    - apply (i_map _ _ _ I _ _ E).
    - split; [constructor|]. intros b [].
  Qed.

  Lemma request_spec w issued own n dtype cap junk : inv w issued own -> 0 <= cap ->
    exists own' w' l, request_buffers keqb w n dtype cap junk = (w', l) /\
      inv w' issued own' /\ extends w w' /\
      (exists new, have w' dtype = have w dtype ++ new) /\
      (forall key, key <> dtype -> have w' key = have w key) /\
      (n <= length (have w' dtype))%nat /\ l = firstn n (have w' dtype).
  Proof.
    intros I Hc. unfold request_buffers. fold (have w dtype).
    destruct (have_ok w issued own dtype I) as [Hnd Hty].
    destruct (new_buffers_spec (n - length (have w dtype)) w issued own dtype cap junk I Hc) as [own' G].
    destruct (new_buffers _ w dtype cap junk) as [w1 new]. destruct G as (G1 & G2 & G3 & G4 & G5 & G6).
    exists own'. eexists. eexists. split; [reflexivity|].
    assert (Hh : forall key, have (mkw (wheap w1) (wbufs w1) (dict_set keqb (wmap w1) dtype (have w dtype ++ new))) key =
                 if keqb key dtype then have w dtype ++ new else have w key).
    { intros key. unfold have at 1. cbn [wmap]. destruct (keqb key dtype) eqn:E.
      - apply keqb_ok in E. subst. now rewrite (get_set_same keqb keqb_ok).
      - rewrite (get_set_other keqb keqb_ok); [now rewrite G3|].
        intros ->. rewrite (eqb_same keqb keqb_ok) in E. discriminate. }
    split; [|split; [|split; [|split; [|split]]]].
    - constructor; cbn [wheap wbufs wmap]; try apply G1.
      intros key l H. destruct (keqb key dtype) eqn:E.
      + apply keqb_ok in E. subst key. rewrite (get_set_same keqb keqb_ok) in H. injection H as <-.
        split.
        * apply NoDup_app; auto.
          -- rewrite G4. apply seq_NoDup.
          -- intros b Hb Hb'. rewrite G4, in_seq in Hb'. destruct (Hty _ Hb) as (x & Hx & _).
             apply nth_error_lt in Hx. lia.
        * intros b Hb. apply in_app_or in Hb. destruct Hb as [Hb|Hb].
          -- destruct (Hty _ Hb) as (x & Hx & Ed). destruct G2 as [_ G2]. destruct (G2 _ _ Hx) as (x' & E1 & E2 & _).
             exists x'. split; auto. congruence.
          -- rewrite G4, in_seq in Hb. apply G6. lia.
      + rewrite (get_set_other keqb keqb_ok) in H.
        * apply (i_map _ _ _ G1 _ _ H).
        * intros ->. rewrite (eqb_same keqb keqb_ok) in E. discriminate.
    - exact G2.
    - exists new. rewrite Hh. now rewrite (eqb_same keqb keqb_ok).
    - intros key Hne. rewrite Hh. now rewrite (eqb_other keqb keqb_ok).
    - rewrite Hh, (eqb_same keqb keqb_ok), app_length, G4, seq_length. lia.
    - now rewrite Hh, (eqb_same keqb keqb_ok).
  Qed.

  (** ** Histories *)

  Definition op_ok (o : @op A K) : Prop :=
    match o with ORequest _ _ cap _ => 0 <= cap | _ => True end.

  Definition is_write (o : @op A K) : bool := match o with OWrite _ _ _ => true | _ => false end.

  (** What a step preserves: element types and capacities of buffers, the
      manager's lists up to appending, and contents unless it is a write. *)
  Record grows (w w' : world) : Prop := mkgrows {
    g_buf : forall b x, nth_error (wbufs w) b = Some x ->
       exists x', nth_error (wbufs w') b = Some x' /\ bdtype x' = bdtype x /\
         bcap x <= bcap x' /\ (bcap x' = bcap x -> braw x' = braw x);
    g_map : forall key, exists new, have w' key = have w key ++ new }.

  Lemma grows_refl w : grows w w.
  Proof.
    constructor.
    - intros b x H. exists x. repeat split; auto. lia.
    - intros. exists []. now rewrite app_nil_r.
  Qed.

  Lemma grows_trans w1 w2 w3 : grows w1 w2 -> grows w2 w3 -> grows w1 w3.
  Proof.
    intros [H1 M1] [H2 M2]. constructor.
    - intros b x H. destruct (H1 _ _ H) as (x2 & G1 & G2 & G3 & G4).
      destruct (H2 _ _ G1) as (x3 & F1 & F2 & F3 & F4).
      exists x3. split; auto. split; [congruence|]. split; [lia|]. intros. rewrite F4, G4; auto; lia.
    - intros key. destruct (M1 key) as [n1 E1]. destruct (M2 key) as [n2 E2].
      exists (n1 ++ n2). now rewrite E2, E1, app_assoc.
  Qed.

  Lemma extends_grows w w' : extends w w' -> wmap w' = wmap w -> grows w w'.
  Proof.
    intros [_ H] Hm. constructor.
    - intros b x Hb. destruct (H _ _ Hb) as (x' & H1 & H2 & H3 & H4 & _). eauto.
    - intros key. exists []. rewrite app_nil_r. unfold have. now rewrite Hm.
  Qed.

  Lemma step_inv w issued own o : inv w issued own -> op_ok o ->
    let (w', issued') := do_op keqb (w, issued) o in
    (exists own', inv w' issued' own') /\ grows w w' /\ (is_write o = false -> extends w w') /\
    (exists new, issued' = issued ++ new).
  Proof.
    intros I Hok. destruct o as [n dtype cap junk|b n junk|b sh junk|k idx a]; cbn [do_op is_write].
    - destruct (request_spec w issued own n dtype cap junk I Hok) as (own' & w' & l & E & H1 & H2 & H3 & H4 & _).
      rewrite E. cbn [fst]. split; [eauto|]. split; [|split; [auto|exists []; now rewrite app_nil_r]].
      constructor.
      + intros b x Hb. destruct H2 as [_ H2]. destruct (H2 _ _ Hb) as (x' & F1 & F2 & F3 & F4 & _). eauto.
      + intros key. destruct (keqb key dtype) eqn:Ek.
        * apply keqb_ok in Ek. subst. auto.
        * exists []. rewrite app_nil_r. apply H4. intros ->. rewrite (eqb_same keqb keqb_ok) in Ek. discriminate.
    - split; [eapply expand_inv; eauto|]. pose proof (expand_extends w issued own b n junk I) as X.
      split; [|split; [auto|exists []; now rewrite app_nil_r]].
      apply extends_grows; auto. apply expand_map.
    - destruct (get_view_fail w issued own b sh junk I) as [[H1 H2]|E].
      + destruct (get_view_spec w issued own b sh junk I H1 H2) as (w' & x' & own' & E & F1 & F2 & F3 & F4 & F5).
        rewrite E. split; [eauto|]. split; [now apply extends_grows|]. split; eauto.
      + rewrite E. split; [eauto|]. split; [apply grows_refl|].
        split; [intros; apply extends_refl|exists []; now rewrite app_nil_r].
    - assert (Same : (exists own', inv w issued own') /\ grows w w /\ (true = false -> extends w w) /\
        (exists new, issued = issued ++ new)).
      { split; [eauto|]. split; [apply grows_refl|]. split; [discriminate|exists []; now rewrite app_nil_r]. }
      destruct (nth_error issued k) as [[b v]|] eqn:E; auto.
      destruct (in_bounds (fst v) idx); auto.
      split; [exists own; eapply write_inv; eauto; eapply nth_error_In; eauto|].
      split; [|split; [discriminate|exists []; now rewrite app_nil_r]].
      constructor.
      + intros b' x Hb. exists x. cbn [write_view wbufs]. repeat split; auto. lia.
      + intros key. exists []. rewrite app_nil_r. reflexivity.
  Qed.

  Lemma run_app (h : @hist A K) (ops1 ops2 : list (@op A K)) : run keqb h (ops1 ++ ops2) = run keqb (run keqb h ops1) ops2.
  Proof. unfold run. apply fold_left_app. Qed.

  Lemma run_inv (ops : list (@op A K)) : forall w issued own, inv w issued own -> Forall op_ok ops ->
    let (w', issued') := run keqb (w, issued) ops in
    (exists own', inv w' issued' own') /\ grows w w' /\
    (forallb (fun o => negb (is_write o)) ops = true -> extends w w') /\
    (exists new, issued' = issued ++ new).
  Proof.
    induction ops as [|o ops IH]; intros w issued own I Hok; cbn [run fold_left].
    - split; [eauto|]. split; [apply grows_refl|]. split; [intros; apply extends_refl|exists []; now rewrite app_nil_r].
    - inv Hok. pose proof (step_inv w issued own o I H1) as S.
      change (fold_left (do_op keqb) ops (do_op keqb (w, issued) o)) with (run keqb (do_op keqb (w, issued) o) ops).
      destruct (do_op keqb (w, issued) o) as [w1 issued1].
      destruct S as ((own1 & I1) & G1 & X1 & new1 & N1).
      specialize (IH w1 issued1 own1 I1 H2).
      destruct (run keqb (w1, issued1) ops) as [w2 issued2].
      destruct IH as (I2 & G2 & X2 & new2 & N2).
      split; auto. split; [eapply grows_trans; eauto|]. split.
      + cbn [forallb]. rewrite andb_true_iff, negb_true_iff. intros [E1 E2]. eapply extends_trans; eauto.
      + exists (new1 ++ new2). now rewrite N2, N1, app_assoc.
  Qed.
End BufferProofs.
