(** Deadlock freedom of the exchanges of a layer (C40). *)

From Coq Require Import Sorting.Sorted.
From Verif Require Import Prelude ModelSlicing ModelPartition ModelGroupCreation ModelCollectives
  ModelExchange Collective Phases SpecIndex SpecPartition ProofSlicing ProofPartition PropPartition
  PropGroupCreation Ring Tensor ProofCollectives.

Notation zl_eq_dec := (list_eq_dec Z.eq_dec).

(** A worker's groups contain it, and all members of a group have it as one of
    their groups. *)
Definition groups_agree (workers : list Z) (snd rcv : Z -> option (list Z)) : Prop :=
  forall w g, snd w = Some g \/ rcv w = Some g ->
  In w g /\ forall m, In m g -> In m workers /\ (snd m = Some g \/ rcv m = Some g).

(** A program on a worker's own two groups: it enters [k] operations on each. *)
Record own_groups (f : option (list Z) -> option (list Z) -> list (instr (list Z)))
    (k : nat) (lev : nat -> nat) (B : nat) : Prop := {
  og_post : forall s r g, In (Post g) (f s r) -> s = Some g \/ r = Some g;
  og_wait : forall s r g n, In (Wait g n) (f s r) ->
    (s = Some g \/ r = Some g) /\ (1 <= n <= k)%nat /\ (lev n < B)%nat;
  og_count : forall s r g, s = Some g \/ r = Some g -> count_post zl_eq_dec g (f s r) = k;
  og_level : forall s r c' n' c i j, (i < j)%nat ->
    nth_error (f s r) i = Some (Wait c' n') -> nth_error (f s r) j = Some (Post c) ->
    (lev n' < lev (count_post zl_eq_dec c (firstn (S j) (f s r))))%nat
}.

Lemma count_post_none {C} (dec : forall a b : C, {a = b} + {a <> b}) c p :
  ~ In (Post c) p -> count_post dec c p = 0%nat.
Proof.
  induction p as [|i p IH]; intros H; auto. unfold count_post in *. simpl.
  destruct i as [c'|c' n]; simpl.
  - destruct (dec c c') as [->|N]; [exfalso; apply H; now left|].
    apply IH. intros C0. apply H. now right.
  - apply IH. intros C0. apply H. now right.
Qed.

Definition opt_is (g : list Z) (o : option (list Z)) : bool :=
  match o with Some h => if zl_eq_dec h g then true else false | None => false end.

Lemma opt_is_spec g o : opt_is g o = true <-> o = Some g.
Proof.
  destruct o as [h|]; simpl; [|split; congruence]. destruct (zl_eq_dec h g); split; congruence.
Qed.

Lemma own_groups_good workers snd rcv f k lev B : groups_agree workers snd rcv ->
  own_groups f k lev B ->
  exists K, good zl_eq_dec workers (fun g => g) (fun w => f (snd w) (rcv w)) K (fun _ n => lev n) B.
Proof.
  intros HG HF.
  set (used g := existsb (fun w => opt_is g (snd w) || opt_is g (rcv w)) workers).
  assert (Hused : forall w g, In w workers -> snd w = Some g \/ rcv w = Some g -> used g = true).
  { intros w g Hw H. apply existsb_exists. exists w. split; auto.
    destruct H as [H|H]; apply opt_is_spec in H; rewrite H; auto using orb_true_r. }
  exists (fun g => if used g then k else 0%nat). split.
  - intros w g Hw H. apply (og_post _ _ _ _ HF) in H. now apply HG in H.
  - intros w g n Hw H. apply (og_wait _ _ _ _ HF) in H as (H1 & H2 & H3).
    destruct (HG w g H1) as [H4 H5]. split; auto.
    rewrite (Hused w g) by auto. repeat split; try lia. intros m Hm. now apply H5.
  - intros w g Hw Hm. destruct (used g) eqn:E.
    + apply (og_count _ _ _ _ HF). apply existsb_exists in E as (u & Hu & E).
      assert (H : snd u = Some g \/ rcv u = Some g).
      { apply orb_true_iff in E as [E|E]; apply opt_is_spec in E; auto. }
      now apply (proj2 (HG u g H) w Hm).
    + apply count_post_none. intros H. apply (og_post _ _ _ _ HF) in H.
      rewrite (Hused w g) in E by auto. discriminate.
  - intros w c' n' c i j Hw Hij Hi Hj. eapply (og_level _ _ _ _ HF); eauto.
Qed.

(** The programs of the code. *)
Ltac nth_case H := repeat match type of H with
  | nth_error _ ?i = Some _ => destruct i as [|i]; simpl in H; try discriminate
  end.

Ltac own_cases s r :=
  destruct s as [a|], r as [b|]; simpl;
  try (destruct (zlist_eqb a b) eqn:?E; [apply zlist_eqb_eq in E; subst b|]); simpl.

Lemma zlist_eqb_false a b : zlist_eqb a b = false -> a <> b.
Proof. intros E C. subst. rewrite zlist_eqb_refl in E. discriminate. Qed.

Ltac dec_all := unfold count_post; simpl;
  repeat match goal with |- context [zl_eq_dec ?x ?y] => destruct (zl_eq_dec x y); try congruence; simpl end.

Ltac rwE_in H := repeat match goal with E : zlist_eqb _ _ = false |- _ => rewrite E in H end.
Ltac rwE := repeat match goal with E : zlist_eqb _ _ = false |- _ => rewrite E end.
Ltac neE := repeat match goal with E : zlist_eqb _ _ = false |- _ => apply zlist_eqb_false in E end.

Ltac own_solve p :=
  split;
  [ intros s r g H; unfold p in H; own_cases s r; simpl in H; rwE_in H; simpl in H;
      rewrite ?zlist_eqb_refl in H; simpl in H; intuition (try discriminate); left + right; congruence
  | intros s r g n H; unfold p in H; own_cases s r; simpl in H; rwE_in H; simpl in H;
      rewrite ?zlist_eqb_refl in H; simpl in H;
      repeat (destruct H as [H|H]; [discriminate || (inv H; split; [left + right; congruence|simpl; lia])|]);
      contradiction
  | intros s r g H; unfold p; own_cases s r; rwE; rewrite ?zlist_eqb_refl; simpl;
      neE; (destruct H as [H|H]; inv H); dec_all; auto
  | intros s r c' n' c i j Hij Hi Hj; unfold p in *;
    own_cases s r; simpl in Hi, Hj |- *; rwE; rwE_in Hi; rwE_in Hj; rewrite ?zlist_eqb_refl in *;
      simpl in Hi, Hj |- *; neE;
      nth_case Hi; inv Hi; nth_case Hj; inv Hj; try lia; dec_all; lia ].

Lemma structure_own : own_groups structure_prog 4 (fun n => if (n <=? 3)%nat then 0 else 1)%nat 2.
Proof. own_solve structure_prog. Qed.

Lemma ibcast_own : own_groups ibcast_prog 1 (fun _ => 0%nat) 1.
Proof. own_solve ibcast_prog. Qed.

Lemma ireduce_own : own_groups ireduce_prog 1 (fun _ => 0%nat) 1.
Proof. own_solve ireduce_prog. Qed.

Lemma teardown_own : own_groups (fun s r => teardown_prog s r false) 1 (fun _ => 0%nat) 1.
Proof. own_solve teardown_prog. Qed.

Lemma own_swap f k lev B : own_groups f k lev B -> own_groups (fun s r => f r s) k lev B.
Proof.
  intros [H1 H2 H3 H4]. split.
  - intros s r g H. apply H1 in H. tauto.
  - intros s r g n H. apply H2 in H. tauto.
  - intros s r g H. apply H3. tauto.
  - intros s r. apply H4.
Qed.

Lemma cross_groups_agree S D rs ls src workers : cross_wf S D rs ls src ->
  (forall v, In v S \/ In v D -> In v workers) -> groups_agree workers rs ls.
Proof.
  intros W HW w g H.
  assert (Hs : exists s, In s S /\ rs s = Some g /\ (w = s \/ In w D /\ src w = s)).
  { destruct H as [H|H].
    - exists w. destruct (in_dec Z.eq_dec w S) as [I|I]; [auto|].
      rewrite (cw_root_none _ _ _ _ _ W w I) in H. discriminate.
    - destruct (in_dec Z.eq_dec w D) as [I|I].
      + exists (src w). split; [now apply (cw_src _ _ _ _ _ W)|].
        rewrite <- (cw_leaf _ _ _ _ _ W w I). auto.
      + rewrite (cw_leaf_none _ _ _ _ _ W w I) in H. discriminate. }
  destruct Hs as (s & Is & Es & Hw).
  destruct (cw_root _ _ _ _ _ W s Is) as (g' & Eg & HN & Hg). rewrite Es in Eg. inv Eg.
  split.
  - destruct Hw as [->|[Hd E]]; [now left|]. destruct (Z.eq_dec w s) as [->|N]; [now left|].
    right. apply Hg. auto.
  - intros m Hm. destruct (cw_member _ _ _ _ _ W s (s :: g') m Is Es Hm) as [Hmd| ->].
    + split; [apply HW; right; tauto|].
      right. now apply (cw_leaf_on _ _ _ _ _ W s _ m Is Es).
    + split; [apply HW; now left|now left].
Qed.

Lemma groups_agree_sym workers a b : groups_agree workers a b -> groups_agree workers b a.
Proof.
  intros H w g Hw. destruct (H w g) as [H1 H2]; [tauto|]. split; auto.
  intros m Hm. destruct (H2 m Hm). tauto.
Qed.

(** ** Group creation *)

Lemma count_XGroup gs g : count_occ xcomm_eq_dec (map XGroup gs) (XGroup g) = count_occ zl_eq_dec gs g.
Proof.
  induction gs as [|h gs IH]; auto. cbn [map count_occ].
  destruct (xcomm_eq_dec (XGroup h) (XGroup g)), (zl_eq_dec h g); congruence.
Qed.

Lemma count_XGroup_other gs c : (forall g, c <> XGroup g) -> count_occ xcomm_eq_dec (map XGroup gs) c = 0%nat.
Proof.
  intros H. induction gs as [|h gs IH]; auto. cbn [map count_occ].
  destruct (xcomm_eq_dec (XGroup h) c); auto. exfalso. eapply H; eauto.
Qed.

Lemma creation_calls_in g gs :
  In (XGroup g) (cross_calls true (Ok (mkcross None None gs))) -> In g gs.
Proof.
  cbn [cross_calls negb x_calls]. unfold broadcast_data_calls. intros Hu.
  repeat (simpl in Hu; rewrite ?in_app_iff in Hu).
  repeat (destruct Hu as [Hu|Hu]; [discriminate|]).
  destruct Hu as [Hu|Hu].
  - apply in_map_iff in Hu as (g' & E & Hg'). congruence.
  - destruct Hu as [Hu|[]]. discriminate.
Qed.

Lemma creation_good all U gc calls : (forall v, In v U -> In v all) ->
  groups_wf U gc ->
  (forall w g, In w U -> In g (gc w) -> In w (incl_ranks U g)) ->
  (forall w, ~ In w U -> calls w = []) ->
  (forall w, In w U -> calls w = cross_calls true (Ok (mkcross None None (gc w)))) ->
  exists K, good xcomm_eq_dec all (xmembers U) (bprog xcomm_eq_dec calls) K (xlevel (length U)) (15 + length U).
Proof.
  intros Hin HG Hself Hout Hcalls.
  set (used g := existsb (fun w => if in_dec zl_eq_dec g (gc w) then true else false) U).
  assert (Hused : forall w g, In w U -> In g (gc w) -> used g = true).
  { intros w g Hw Hg. apply existsb_exists. exists w. split; auto. destruct (in_dec zl_eq_dec g (gc w)); auto. }
  exists (fun c => match c with XRoot => 1 | XUnion => 13 | XGroup g => if used g then 1 else 0 end)%nat.
  apply good_blocking.
  - intros w c Hw Hc. destruct (in_dec Z.eq_dec w U) as [I|I]; [|rewrite Hout in Hc by auto; easy].
    rewrite (Hcalls w I) in Hc. destruct c as [| |g]; simpl; try (split; now auto).
    apply creation_calls_in in Hc. split; [now apply Hself|].
    intros m Hm. destruct (HG w I) as (_ & _ & _ & H). destruct (H g Hc) as [_ H'].
    apply Hin. now apply H'.
  - intros w c Hw Hc.
    assert (I : In w U \/ (~ In w U /\ exists g, c = XGroup g)).
    { destruct c as [| |g]; simpl in Hc; auto. destruct (in_dec Z.eq_dec w U); eauto. }
    destruct I as [I|[I (g & ->)]].
    + rewrite (Hcalls w I). cbn [cross_calls negb x_calls]. rewrite !count_occ_app.
      destruct c as [| |g].
      * rewrite count_XGroup_other by congruence. reflexivity.
      * rewrite count_XGroup_other by congruence. reflexivity.
      * rewrite count_XGroup. unfold broadcast_data_calls. simpl.
        destruct (HG w I) as (ND & _).
        assert (H1 : (count_occ zl_eq_dec (gc w) g <= 1)%nat)
          by (apply (NoDup_count_occ zl_eq_dec); auto).
        destruct (used g) eqn:E.
        -- assert (Hg : In g (gc w)).
           { apply existsb_exists in E as (u & Hu & E). destruct (in_dec zl_eq_dec g (gc u)) as [Ig|]; [|easy].
             destruct (HG u Hu) as (_ & _ & _ & H). destruct (H g Ig) as [_ H']. now apply H'. }
           apply (count_occ_In zl_eq_dec) in Hg. lia.
        -- destruct (count_occ zl_eq_dec (gc w) g) eqn:Ec; auto.
           assert (Hg : In g (gc w)) by (apply (count_occ_In zl_eq_dec); lia).
           rewrite (Hused w g) in E by auto. discriminate.
    + rewrite (Hout w I). simpl. destruct (used g) eqn:E; auto.
      exfalso. apply existsb_exists in E as (u & Hu & E). destruct (in_dec zl_eq_dec g (gc u)) as [Ig|]; [|easy].
      destruct (HG u Hu) as (_ & _ & _ & H). destruct (H g Ig) as [_ H']. apply I. now apply H'.
  - intros w Hw.
    destruct (in_dec Z.eq_dec w U) as [Iw|Iw]; [|rewrite Hout by auto; constructor].
    rewrite (Hcalls w Iw). destruct (HG w Iw) as (_ & HS & HLen & Hmem).
    cbn [cross_calls negb x_calls].
    destruct (gc w) as [|a [|b [|? ?]]]; [| | |simpl in HLen; lia].
    + simpl. repeat (constructor; [|repeat (constructor; [lia|]); constructor]). constructor.
    + destruct (Hmem a (or_introl eq_refl)) as [Ha _].
      simpl. repeat (constructor; [|repeat (constructor; [lia|]); constructor]). constructor.
    + destruct (Hmem a (or_introl eq_refl)) as [Ha _].
      destruct (Hmem b (or_intror (or_introl eq_refl))) as [Hb _].
      assert (hd 0 a < hd 0 b) by (inv HS; inv H2; auto).
      simpl. repeat (constructor; [|repeat (constructor; [lia|]); constructor]). constructor.
  - intros w c n Hw Hc Hn. destruct c as [| |g]; cbn [xlevel].
    + lia.
    + destruct (Nat.leb_spec n 12); lia.
    + destruct (in_dec Z.eq_dec w U) as [I|I]; [|rewrite Hout in Hc by auto; easy].
      rewrite (Hcalls w I) in Hc. apply creation_calls_in in Hc.
      destruct (HG w I) as (_ & _ & _ & H). destruct (H g Hc) as [H' _]. lia.
Qed.

(** Every worker is a member of the groups it creates. *)
Lemma groups_self Ps Pd ts td U gc : part_ok Ps -> part_ok Pd ->
  bc_compatible (flip ts (p_shape Ps)) (flip td (p_shape Pd)) -> NoDup U ->
  (forall v, In v U <-> In v (p_ranks Ps) \/ In v (p_ranks Pd)) ->
  (forall w, In w U ->
      create_send_recv_calls (send_of Ps Pd ts td U w) (recv_of Ps Pd ts td U w) = Ok (gc w) \/
      create_send_recv_calls (recv_of Ps Pd ts td U w) (send_of Ps Pd ts td U w) = Ok (gc w)) ->
  forall w g, In w U -> In g (gc w) -> In w (incl_ranks U g).
Proof.
  intros H1 H2 HC HN HU Hc w g Hw Hg.
  destruct (calls_spec Ps Pd ts td H1 H2 HC U HN HU w (gc w) Hw (Hc w Hw)) as (_ & _ & HI).
  apply HI in Hg as (c & Hcw & ->).
  destruct (in_group_root Ps Pd ts td H1 H2 HC c w Hcw) as (r & Hr & H0).
  destruct (grp_spec Ps Pd ts td H1 HC U HN HU c r Hr H0) as (_ & Ei & _ & _).
  rewrite Ei. apply colour_group_in. destruct Hcw as [[I E]|[I E]].
  - left. exact (root_of_unique Ps Pd ts td H1 HC c r w Hr H0 E).
  - right. auto.
Qed.
