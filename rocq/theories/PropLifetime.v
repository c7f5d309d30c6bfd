(** Lifetimes of communicators and groups. *)

From Verif Require Import Prelude ModelLifetime.

(** ** C67 *)

Definition comm_alive (h : heap) (c : nat) : Prop := (c < comms h)%nat /\ ~ In c (freed_comms h).
Definition group_alive (h : heap) (g : nat) : Prop := (g < groups h)%nat /\ ~ In g (freed_groups h).

(** A partition that can be used: its communicator, its group and what it was
    derived from exist. *)
Definition usable (h : heap) (o : pobj) : Prop :=
  exists c g, o_comm o = Some c /\ o_group o = Some g /\ comm_alive h c /\ group_alive h g.

(** The partitions that a call returned: P_send and P_recv, or a single one. *)
Definition returned (o : op) (h : heap) : list pobj :=
  let n := length (objs h) in
  match o with
  | OCross _ _ _ => [obj h (n - 2); obj h (n - 1)]
  | ODeactivate _ => []
  | _ => [obj h (n - 1)]
  end.

(** Creating a sub-partition needs an active partition; unions and broadcasts
    need partitions that have a group, active or not.  The other calls accept any
    partition. *)
Definition has_handles (h : heap) (o : op) : Prop :=
  match o with
  | OInclusive i _ => o_active (obj h i) = true
  | OUnion i j _ | OCross i j _ => o_group (obj h i) <> None /\ o_group (obj h j) <> None
  | _ => True
  end.

(** After any sequence of calls, whether or not some of them raised: *)
Definition C67_statement : Prop :=
  forall os, let h := do_ops start os in
  (* nothing is released twice, and MPI.COMM_WORLD never *)
  NoDup (freed_comms h) /\ NoDup (freed_groups h) /\ ~ In 0%nat (freed_comms h) /\
  (* partitions are usable as long as they are active, and share nothing but MPI.COMM_WORLD *)
  (forall i o, nth_error (objs h) i = Some o -> o_active o = true -> usable h o) /\
  (forall i j o o', nth_error (objs h) i = Some o -> nth_error (objs h) j = Some o' -> i <> j ->
     o_active o = true -> o_active o' = true ->
     (o_comm o = o_comm o' -> o_comm o = Some 0%nat) /\ o_group o <> o_group o') /\
  (* releasing one releases its communicator, and affects no other *)
  (forall i, (i < length (objs h))%nat -> exists h', do_op h (ODeactivate i) = (h', None) /\
     o_active (obj h' i) = false /\
     (forall c, (c < comms h)%nat -> (comm_alive h' c <-> comm_alive h c /\ ~ (o_comm (obj h i) = Some c /\ c <> 0%nat))) /\
     (forall j, j <> i -> obj h' j = obj h j /\ (o_active (obj h j) = true -> usable h' (obj h' j)))) /\
  (* calls do not fail for want of a handle, if the partitions given have what the call reads *)
  (forall o, has_handles h o -> snd (do_op h o) <> Some NullHandle) /\
  (* a call that does not raise leaves no communicator behind: those it created and did not release
     belong to the partitions it returned, and it released none of those before *)
  (forall o h', do_op h o = (h', None) -> (forall i, o <> ODeactivate i) -> o <> OComm ->
     (forall c, (comms h <= c)%nat -> comm_alive h' c -> exists p, In p (returned o h') /\ o_active p = true /\ o_comm p = Some c) /\
     (forall c, (c < comms h)%nat -> (comm_alive h' c <-> comm_alive h c))).

(** If all partitions come from MPI.COMM_WORLD, unions never fail for want of a
    root. *)
Definition C67_world_statement : Prop :=
  forall os, ~ In OComm os -> let h := do_ops start os in
  (forall i, o_active (obj h i) = true -> o_group (obj h i) <> None /\ o_root (obj h i) <> None) /\
  (forall i j, o_group (obj h i) <> None -> o_root (obj h i) <> None ->
               o_group (obj h j) <> None -> o_root (obj h j) <> None ->
     (forall m, snd (do_op h (OUnion i j m)) = None) /\
     (forall s r e, s || r = true -> snd (do_op h (OCross i j (Groups s r e))) = None)).

(** A program in which no call raises. *)
Fixpoint runs (h : heap) (os : list op) : Prop :=
  match os with
  | [] => True
  | o :: os => snd (do_op h o) = None /\ runs (fst (do_op h o)) os
  end.

(** Once all partitions are released, no communicator is left. *)
Definition C67_teardown_statement : Prop :=
  forall os, runs start os -> let h := do_ops start os in
  forall c, comm_alive (do_ops h (map ODeactivate (seq 0 (length (objs h))))) c -> c = 0%nat.

(** *** Invariant *)

Record Inv (h : heap) : Prop := {
  i_world : (1 <= comms h)%nat /\ ~ In 0%nat (freed_comms h);
  i_nodup : NoDup (freed_comms h) /\ NoDup (freed_groups h);
  i_freed : (forall c, In c (freed_comms h) -> (c < comms h)%nat) /\ (forall g, In g (freed_groups h) -> (g < groups h)%nat);
  i_active : forall i o, nth_error (objs h) i = Some o -> o_active o = true -> usable h o;
  i_inactive : forall i o, nth_error (objs h) i = Some o -> o_active o = false -> o_comm o = None;
  i_group : forall i o g, nth_error (objs h) i = Some o -> o_group o = Some g -> group_alive h g;
  i_excl : forall i j o o', nth_error (objs h) i = Some o -> nth_error (objs h) j = Some o' -> i <> j -> o_active o = true ->
    (o_active o' = true -> o_comm o = o_comm o' -> o_comm o = Some 0%nat) /\ o_group o <> o_group o'
}.

Lemma Inv_start : Inv start.
Proof.
  constructor; cbn [start objs comms groups freed_comms freed_groups].
  - split; [lia|intros []].
  - split; constructor.
  - split; intros c [].
  - intros [|i] o E; discriminate E.
  - intros [|i] o E; discriminate E.
  - intros [|i] o g E; discriminate E.
  - intros [|i] j o o' E; discriminate E.
Qed.

Lemma mem_spec n l : mem n l = true <-> In n l.
Proof.
  unfold mem. rewrite existsb_exists. split.
  - intros (x & Hx & E). apply Nat.eqb_eq in E. now subst.
  - intros H. exists n. split; [exact H|apply Nat.eqb_refl].
Qed.
Lemma mem_false n l : mem n l = false <-> ~ In n l.
Proof. rewrite <- mem_spec. destruct (mem n l); split; congruence. Qed.

Lemma live_comm_alive h c : comm_alive h c -> live_comm h (Some c) = true.
Proof. intros [_ H]. cbn. apply negb_true_iff. now apply mem_false. Qed.
Lemma live_group_alive h g : group_alive h g -> live_group h (Some g) = true.
Proof. intros [_ H]. cbn. apply negb_true_iff. now apply mem_false. Qed.

Lemma obj_nth h i : o_active (obj h i) = true -> nth_error (objs h) i = Some (obj h i).
Proof.
  unfold obj. intros H. destruct (nth_error (objs h) i) as [o|] eqn:E.
  - now rewrite (nth_error_nth _ _ _ E).
  - apply nth_error_None in E. rewrite nth_overflow in H by exact E. discriminate H.
Qed.
Lemma obj_at h i o : nth_error (objs h) i = Some o -> obj h i = o.
Proof. intros E. unfold obj. exact (nth_error_nth _ _ _ E). Qed.

Lemma Inv_comm h : Inv h -> Inv (snd (new_comm h)).
Proof.
  intros [H1 H2 H3 H4 H5 H6 H7]. constructor; cbn; auto.
  - split; [lia|apply H1].
  - split; [intros c Hc; apply H3 in Hc; lia|apply H3].
  - intros i o E A. destruct (H4 i o E A) as (c & g & A1 & A2 & [A3 A4] & A5). exists c, g. repeat split; auto; cbn; try lia; apply A5.
Qed.
Lemma Inv_group h : Inv h -> Inv (snd (new_group h)).
Proof.
  intros [H1 H2 H3 H4 H5 H6 H7]. constructor; cbn; auto.
  - split; [apply H3|intros c Hc; apply H3 in Hc; lia].
  - intros i o E A. destruct (H4 i o E A) as (c & g & A1 & A2 & A3 & [A4 A5]). exists c, g. repeat split; auto; cbn; try lia; apply A3.
  - intros i o g E A. destruct (H6 i o g E A). split; cbn; [lia|auto].
Qed.

(** A new object with handles that no other object owns. *)
Definition fresh (h : heap) (c g : option nat) : Prop :=
  match c with
  | Some c => comm_alive h c /\ (c = 0%nat \/ forall i o, nth_error (objs h) i = Some o -> o_comm o <> Some c) /\
              exists g', g = Some g' /\ group_alive h g' /\ forall i o, nth_error (objs h) i = Some o -> o_group o <> Some g'
  | None => match g with
            | Some g' => group_alive h g' /\ forall i o, nth_error (objs h) i = Some o -> o_active o = true -> o_group o <> Some g'
            | None => True
            end
  end.

Lemma nth_snoc {A} (l : list A) x i o : nth_error (l ++ [x]) i = Some o ->
  (nth_error l i = Some o /\ (i < length l)%nat) \/ (i = length l /\ o = x).
Proof.
  intros E. destruct (Nat.lt_ge_cases i (length l)) as [L|L].
  - rewrite nth_error_app1 in E by exact L. auto.
  - rewrite nth_error_app2 in E by exact L. destruct (i - length l)%nat as [|k] eqn:K.
    + cbn in E. right. split; [lia|congruence].
    + destruct k; discriminate E.
Qed.

Lemma Inv_obj h c g r : Inv h -> fresh h c g -> Inv (new_obj h c g r).
Proof.
  intros [H1 H2 H3 H4 H5 H6 H7] F. constructor; cbn [new_obj objs comms groups freed_comms freed_groups]; auto.
  - intros i o E A. apply nth_snoc in E as [[E _]|[-> ->]].
    + destruct (H4 i o E A) as (c' & g' & A'). now exists c', g'.
    + cbn in A. destruct c as [c|]; [|discriminate A]. destruct F as (F1 & _ & g' & -> & F2 & _). now exists c, g'.
  - intros i o E A. apply nth_snoc in E as [[E _]|[-> ->]]; [eauto|]. cbn in *. now destruct c.
  - intros i o g' E A. apply nth_snoc in E as [[E _]|[-> ->]]; [exact (H6 i o g' E A)|]. cbn in A. subst g.
    destruct c as [c|].
    + destruct F as (_ & _ & g'' & Eg & F2 & _). injection Eg as <-. exact F2.
    + apply F.
  - intros i j o o' E E' Hij A.
    apply nth_snoc in E as [[E Li]|[-> ->]]; apply nth_snoc in E' as [[E' Lj]|[-> ->]].
    + eauto.
    + cbn [o_active o_comm o_group]. destruct c as [c|].
      * destruct F as (F1 & F2 & g' & -> & F3 & F4). split.
        -- intros _ Ec. destruct F2 as [->|F2]; [exact Ec|]. exfalso. exact (F2 i o E Ec).
        -- exact (F4 i o E).
      * split; [discriminate|]. destruct g as [g'|].
        -- exact (proj2 F i o E A).
        -- intros Eg. destruct (H4 i o E A) as (c' & g' & _ & A2 & _). congruence.
    + cbn [o_active o_comm o_group] in *. destruct c as [c|]; [|discriminate A].
      destruct F as (F1 & F2 & g' & -> & F3 & F4). split.
      * intros _ Ec. destruct F2 as [->|F2]; [reflexivity|]. exfalso. symmetry in Ec. exact (F2 j o' E' Ec).
      * intros Eg. symmetry in Eg. exact (F4 j o' E' Eg).
    + contradiction.
Qed.

(** Communicators of active objects are below the counter, so a new one is owned
    by nobody. *)
Lemma comm_bound h i o c : Inv h -> nth_error (objs h) i = Some o -> o_comm o = Some c -> (c < comms h)%nat.
Proof.
  intros I E Ec. destruct (o_active o) eqn:A.
  - destruct (i_active h I i o E A) as (c' & g & E1 & _ & [L _] & _). rewrite Ec in E1. injection E1 as <-. exact L.
  - rewrite (i_inactive h I i o E A) in Ec. discriminate Ec.
Qed.

Lemma fresh_new h : Inv h ->
  fresh (snd (new_group (snd (new_comm h)))) (Some (comms h)) (Some (groups h)) /\
  fresh (snd (new_comm (snd (new_group h)))) (Some (comms h)) (Some (groups h)).
Proof.
  intros I.
  assert (A : ~ In (comms h) (freed_comms h)) by (intros H; apply (i_freed h I) in H; lia).
  assert (B : ~ In (groups h) (freed_groups h)) by (intros H; apply (i_freed h I) in H; lia).
  assert (C : forall i o, nth_error (objs h) i = Some o -> o_comm o <> Some (comms h)).
  { intros i o E Ec. pose proof (comm_bound h i o _ I E Ec). lia. }
  assert (D : forall i o, nth_error (objs h) i = Some o -> o_group o <> Some (groups h)).
  { intros i o E Eg. destruct (i_group h I i o _ E Eg). lia. }
  split; cbn; (split; [split; cbn; [lia|exact A]|]); (split; [now right|]); exists (groups h); repeat split; cbn; auto; lia.
Qed.

Lemma nth_upd_case {A} (l : list A) i x j o : nth_error (upd i x l) j = Some o ->
  (j = i /\ o = x /\ (i < length l)%nat) \/ (j <> i /\ nth_error l j = Some o).
Proof.
  revert i j. induction l as [|a l IH]; intros [|i] [|j] E; cbn in E; try discriminate E.
  - left. split; [reflexivity|]. split; [congruence|cbn; lia].
  - right. split; [lia|exact E].
  - right. split; [lia|exact E].
  - destruct (IH i j E) as [(-> & -> & L)|(N & E')]; [left; cbn; repeat split; lia|right; split; [lia|exact E']].
Qed.

Lemma deactivate_active h i : Inv h -> o_active (obj h i) = true -> exists c g,
  o_comm (obj h i) = Some c /\ o_group (obj h i) = Some g /\ comm_alive h c /\ group_alive h g /\
  deactivate h i = (mkheap (upd i (mkobj None None (o_root (obj h i)) false) (objs h)) (comms h) (groups h)
                      ((match c with O => [] | S _ => [c] end) ++ freed_comms h) (g :: freed_groups h), None).
Proof.
  intros I A. destruct (i_active h I i _ (obj_nth h i A) A) as (c & g & E1 & E2 & L1 & L2).
  exists c, g. split; [exact E1|]. split; [exact E2|]. split; [exact L1|]. split; [exact L2|].
  unfold deactivate. rewrite A, E1, E2, (live_comm_alive h c L1), (live_group_alive h g L2). now destruct c.
Qed.

Lemma Inv_deactivate h i : Inv h -> Inv (fst (deactivate h i)).
Proof.
  intros I. destruct (o_active (obj h i)) eqn:A.
  2: { unfold deactivate. now rewrite A. }
  destruct (deactivate_active h i I A) as (c & g & Ec & Eg & [L1 L1'] & [L2 L2'] & ->). cbn [fst].
  pose proof (obj_nth h i A) as Ei. destruct I as [H1 H2 H3 H4 H5 H6 H7].
  set (o := obj h i) in *.
  assert (K : forall j o', j <> i -> nth_error (objs h) j = Some o' -> o_group o' <> Some g /\ (o_active o' = true -> o_comm o' = Some c -> c = 0%nat)).
  { intros j o' N E. destruct (H7 i j o o' Ei E ltac:(lia) A) as [X Y]. split; [congruence|].
    intros A' Ec'. specialize (X A' ltac:(congruence)). congruence. }
  assert (KC : forall c', comm_alive h c' -> (c' = c -> c = 0%nat) ->
    comm_alive (mkheap (upd i (mkobj None None (o_root o) false) (objs h)) (comms h) (groups h)
                  ((match c with O => [] | S _ => [c] end) ++ freed_comms h) (g :: freed_groups h)) c').
  { intros c' [X Y] Z. split; [exact X|]. cbn. intros Hin. apply in_app_or in Hin as [Hin|Hin]; [|contradiction].
    destruct c; [destruct Hin|]. destruct Hin as [<-|[]]. specialize (Z eq_refl). discriminate Z. }
  constructor; cbn [objs comms groups freed_comms freed_groups].
  - split; [apply H1|]. intros Hin. apply in_app_or in Hin as [Hin|Hin]; [|now apply H1].
    destruct c; [destruct Hin|]. destruct Hin as [E|[]]. discriminate E.
  - split; [|constructor; [exact L2'|apply H2]]. destruct c; [apply H2|]. cbn. constructor; [exact L1'|apply H2].
  - split; [|intros g' [<-|Hin]; [exact L2|now apply H3]]. intros c' Hin. apply in_app_or in Hin as [Hin|Hin]; [|now apply H3].
    destruct c; [destruct Hin|]. destruct Hin as [<-|[]]. exact L1.
  - intros j o' E A'. apply nth_upd_case in E as [(-> & -> & _)|(N & E)]; [discriminate A'|].
    destruct (H4 j o' E A') as (c' & g' & X1 & X2 & X3 & [X4 X4']). destruct (K j o' N E) as [Y1 Y2].
    exists c', g'. split; [exact X1|]. split; [exact X2|]. split; [apply KC; [exact X3|intros ->; auto]|].
    split; [exact X4|]. cbn. intros [<-|Hin]; [now apply Y1|contradiction].
  - intros j o' E A'. apply nth_upd_case in E as [(-> & -> & _)|(N & E)]; [reflexivity|eauto].
  - intros j o' g' E Eg'. apply nth_upd_case in E as [(-> & -> & _)|(N & E)]; [discriminate Eg'|].
    destruct (H6 j o' g' E Eg') as [X X']. split; [exact X|]. cbn. intros [<-|Hin]; [now apply (K j o' N E)|contradiction].
  - intros j k o1 o2 E1 E2 N A1. apply nth_upd_case in E1 as [(-> & -> & _)|(N1 & E1)]; [discriminate A1|].
    apply nth_upd_case in E2 as [(-> & -> & _)|(N2 & E2)].
    + split; [discriminate|]. destruct (H4 j o1 E1 A1) as (c' & g' & _ & X & _). rewrite X. discriminate.
    + exact (H7 j k o1 o2 E1 E2 N A1).
Qed.

Lemma fresh_above h0 h' c g : Inv h0 -> freed_comms h' = freed_comms h0 -> freed_groups h' = freed_groups h0 ->
  (comms h0 <= c < comms h')%nat -> (groups h0 <= g < groups h')%nat ->
  (forall i o, nth_error (objs h') i = Some o ->
     nth_error (objs h0) i = Some o \/ (o_comm o <> Some c /\ o_group o <> Some g)) ->
  fresh h' (Some c) (Some g).
Proof.
  intros I Fc Fg Lc Lg O. cbn. split; [|split].
  - split; [lia|]. rewrite Fc. intros H. apply (i_freed h0 I) in H. lia.
  - right. intros i o E Ec. destruct (O i o E) as [E'|[N _]]; [|contradiction].
    pose proof (comm_bound h0 i o c I E' Ec). lia.
  - exists g. split; [reflexivity|]. split.
    + split; [lia|]. rewrite Fg. intros H. apply (i_freed h0 I) in H. lia.
    + intros i o E Eg. destruct (O i o E) as [E'|[_ N]]; [|contradiction].
      destruct (i_group h0 I i o g E' Eg). lia.
Qed.

(** What the elementary calls create: one object, with a communicator if it is
    active. *)
Definition Created (h h' : heap) (o : pobj) : Prop :=
  Inv h' /\ freed_comms h' = freed_comms h /\ objs h' = objs h ++ [o] /\
  ((o_active o = true /\ o_comm o = Some (comms h) /\ comms h' = S (comms h)) \/
   (o_active o = false /\ comms h' = comms h)).

Lemma Created_gc h r : Inv h ->
  Created h (new_obj (snd (new_comm (snd (new_group h)))) (Some (comms h)) (Some (groups h)) r)
            (mkobj (Some (comms h)) (Some (groups h)) r true).
Proof.
  intros I. split; [|split; [reflexivity|split; [reflexivity|now left]]].
  apply Inv_obj; [apply Inv_comm, Inv_group, I|]. now apply fresh_new.
Qed.
Lemma Created_cg h r : Inv h ->
  Created h (new_obj (snd (new_group (snd (new_comm h)))) (Some (comms h)) (Some (groups h)) r)
            (mkobj (Some (comms h)) (Some (groups h)) r true).
Proof.
  intros I. split; [|split; [reflexivity|split; [reflexivity|now left]]].
  apply Inv_obj; [apply Inv_group, Inv_comm, I|]. now apply fresh_new.
Qed.
Lemma Created_g h r : Inv h ->
  Created h (new_obj (snd (new_group h)) None (Some (groups h)) r) (mkobj None (Some (groups h)) r false).
Proof.
  intros I. split; [|split; [reflexivity|split; [reflexivity|now right]]].
  apply Inv_obj; [now apply Inv_group|]. cbn. split.
  - split; cbn; [lia|]. intros H. apply (i_freed h I) in H. lia.
  - intros i o E _ Eg. destruct (i_group h I i o _ E Eg). lia.
Qed.
Lemma Created_null h r : Inv h -> Created h (new_obj h None None r) (mkobj None None r false).
Proof.
  intros I. split; [|split; [reflexivity|split; [reflexivity|now right]]]. now apply Inv_obj.
Qed.

Lemma live_comm_active h i : Inv h -> live_comm h (o_comm (obj h i)) = o_active (obj h i).
Proof.
  intros I. destruct (o_active (obj h i)) eqn:A.
  - destruct (i_active h I i _ (obj_nth h i A) A) as (c & g & E1 & _ & L & _). rewrite E1. now apply live_comm_alive.
  - unfold obj in *. destruct (nth_error (objs h) i) as [o|] eqn:E.
    + rewrite (nth_error_nth _ _ _ E) in A |- *. now rewrite (i_inactive h I i o E A).
    + apply nth_error_None in E. now rewrite nth_overflow.
Qed.
Lemma live_group_some h i : Inv h -> live_group h (o_group (obj h i)) = match o_group (obj h i) with Some _ => true | None => false end.
Proof.
  intros I. destruct (o_group (obj h i)) as [g|] eqn:G; [|reflexivity]. apply live_group_alive.
  unfold obj in G. destruct (nth_error (objs h) i) as [o|] eqn:E.
  - rewrite (nth_error_nth _ _ _ E) in G. exact (i_group h I i o g E G).
  - apply nth_error_None in E. rewrite nth_overflow in G by exact E. discriminate G.
Qed.
Lemma group_active h i : Inv h -> o_active (obj h i) = true -> exists g, o_group (obj h i) = Some g.
Proof. intros I A. destruct (i_active h I i _ (obj_nth h i A) A) as (c & g & _ & E & _). now exists g. Qed.

Lemma inclusive_step h i m : Inv h ->
  (o_active (obj h i) = true -> exists o, snd (inclusive h i m) = None /\ Created h (fst (inclusive h i m)) o /\
     o_active o = m /\ o_root o = o_root (obj h i)) /\
  (o_active (obj h i) = false -> snd (inclusive h i m) = Some NullHandle /\ Inv (fst (inclusive h i m)) /\
     objs (fst (inclusive h i m)) = objs h).
Proof.
  intros I. unfold inclusive. split; intros A.
  - rewrite (live_group_some h i I). destruct (group_active h i I A) as (g & ->). cbn [negb new_group].
    change (live_comm (mkheap (objs h) (comms h) (S (groups h)) (freed_comms h) (freed_groups h)) (o_comm (obj h i)))
      with (live_comm h (o_comm (obj h i))).
    rewrite (live_comm_active h i I), A. cbn [negb]. destruct m.
    + eexists. split; [reflexivity|]. split; [apply (Created_gc h (o_root (obj h i)) I)|]. now split.
    + eexists. split; [reflexivity|]. split; [apply (Created_g h (o_root (obj h i)) I)|]. now split.
  - destruct (live_group h (o_group (obj h i))); cbn [negb]; [|split; [reflexivity|split; [exact I|reflexivity]]].
    cbn [new_group].
    change (live_comm (mkheap (objs h) (comms h) (S (groups h)) (freed_comms h) (freed_groups h)) (o_comm (obj h i)))
      with (live_comm h (o_comm (obj h i))).
    rewrite (live_comm_active h i I), A. cbn [negb fst snd]. split; [reflexivity|]. split; [|reflexivity].
    exact (Inv_group h I).
Qed.

Lemma union_step h i j m : Inv h ->
  (snd (union h i j m) = None /\ exists o r, Created h (fst (union h i j m)) o /\ o_active o = m /\
     o_root (obj h i) = Some r /\ o_root o = Some r) \/
  (snd (union h i j m) <> None /\ fst (union h i j m) = h /\
     (snd (union h i j m) = Some NullHandle -> o_group (obj h i) = None \/ o_group (obj h j) = None)).
Proof.
  intros I. unfold union. rewrite (live_group_some h i I), (live_group_some h j I).
  destruct (live_comm h (o_root (obj h i)) && live_comm h (o_root (obj h j)) && _) eqn:R; cbn [negb].
  2: { right. cbn. split; [discriminate|]. split; [reflexivity|discriminate]. }
  destruct (o_group (obj h i)) as [g|] eqn:G; cbn [andb negb].
  2: { right. cbn. split; [discriminate|]. split; [reflexivity|auto]. }
  destruct (o_group (obj h j)) as [g'|] eqn:G'; cbn [negb].
  2: { right. cbn. split; [discriminate|]. split; [reflexivity|auto]. }
  left. cbn [new_group].
  destruct (o_root (obj h i)) as [r|] eqn:Er; [|discriminate R].
  destruct m.
  - split; [reflexivity|]. eexists. exists r. split; [apply (Created_gc h (Some r) I)|]. now repeat split.
  - split; [reflexivity|]. eexists. exists r. split; [apply (Created_g h (Some r) I)|]. now repeat split.
Qed.

Lemma cartesian_step h i f : Inv h ->
  (o_active (obj h i) = true /\ f = false /\ snd (cartesian h i f) = Some Exception /\ Inv (fst (cartesian h i f)) /\
     objs (fst (cartesian h i f)) = objs h) \/
  (snd (cartesian h i f) = None /\ exists o, Created h (fst (cartesian h i f)) o /\ o_active o = o_active (obj h i) /\
     o_root o = o_root (obj h i)).
Proof.
  intros I. unfold cartesian. rewrite (live_comm_active h i I). destruct (o_active (obj h i)) eqn:A; cbn [negb].
  - cbn [new_comm new_group]. destruct f; cbn [negb].
    + right. split; [reflexivity|]. eexists. split; [apply (Created_cg h (o_root (obj h i)) I)|]. now split.
    + left. split; [reflexivity|]. split; [reflexivity|]. split; [reflexivity|]. split; [|reflexivity].
      exact (Inv_group _ (Inv_comm h I)).
  - right. split; [reflexivity|]. cbn [fst]. exists (mkobj None (o_group (obj h i)) (o_root (obj h i)) false).
    split; [|now split]. split; [|split; [reflexivity|split; [reflexivity|now right]]].
    apply Inv_obj; [exact I|]. cbn. destruct (o_group (obj h i)) as [g|] eqn:G; [|trivial].
    unfold obj in A, G. destruct (nth_error (objs h) i) as [o|] eqn:E.
    2: { apply nth_error_None in E. rewrite nth_overflow in G by exact E. discriminate G. }
    rewrite (nth_error_nth _ _ _ E) in A, G. split; [exact (i_group h I i o g E G)|].
    intros k o' E' A' G'. assert (N : k <> i) by (intros ->; congruence).
    apply (i_excl h I k i o' o E' E N A'). congruence.
Qed.

Lemma subtopology_step h i : Inv h ->
  snd (subtopology h i) = None /\ exists o, Created h (fst (subtopology h i)) o /\ o_active o = o_active (obj h i) /\
     o_root o = o_root (obj h i).
Proof.
  intros I. unfold subtopology. rewrite (live_comm_active h i I). destruct (o_active (obj h i)) eqn:A; cbn [negb].
  - cbn [new_comm new_group]. split; [reflexivity|]. eexists. split; [apply (Created_cg h (o_root (obj h i)) I)|]. now split.
  - split; [reflexivity|]. eexists. split; [apply (Created_null h (o_root (obj h i)) I)|]. now split.
Qed.

(** *** Calls that release a temporary partition *)

Lemma upd_mid {A} (l r : list A) a x : upd (length l) x (l ++ a :: r) = l ++ x :: r.
Proof. induction l as [|b l IH]; cbn; [reflexivity|now rewrite IH]. Qed.
Lemma obj_mid h l a r : objs h = l ++ a :: r -> obj h (length l) = a.
Proof. intros E. unfold obj. rewrite E, app_nth2, Nat.sub_diag by lia. reflexivity. Qed.

Lemma release h l a r c : Inv h -> objs h = l ++ a :: r -> o_active a = true -> o_comm a = Some (S c) ->
  exists h', deactivate h (length l) = (h', None) /\ Inv h' /\ objs h' = l ++ mkobj None None (o_root a) false :: r /\
             comms h' = comms h /\ freed_comms h' = S c :: freed_comms h.
Proof.
  intros I E A C. pose proof (obj_mid h l a r E) as O. rewrite <- O in A, C.
  destruct (deactivate_active h (length l) I A) as (c' & g & E1 & E2 & _ & _ & D).
  rewrite C in E1. injection E1 as <-. pose proof (Inv_deactivate h (length l) I) as I'. rewrite D in I' |- *.
  eexists. split; [reflexivity|]. split; [exact I'|]. cbn. split; [|now split]. now rewrite O, E, upd_mid.
Qed.

(** The outcome of such a call: a released partition, then the results. *)
Record Compound (h h' : heap) (t : pobj) (news : list pobj) : Prop := {
  cp_inv : Inv h';
  cp_objs : objs h' = objs h ++ t :: news;
  cp_temp : o_active t = false;
  cp_freed : freed_comms h' = comms h :: freed_comms h;
  cp_comms : forall c, (comms h < c < comms h')%nat -> exists p, In p news /\ o_active p = true /\ o_comm p = Some c;
  cp_le : (comms h < comms h')%nat;
  cp_roots : exists R, o_root t = R /\ forall p, In p news -> o_root p = R \/ (o_active p = false /\ o_root p = None)
}.

Lemma allreduction_step h i : Inv h -> o_active (obj h i) = true ->
  exists t p, snd (allreduction h i) = None /\ Compound h (fst (allreduction h i)) t [p] /\ o_root t = o_root (obj h i).
Proof.
  intros I A. unfold allreduction. rewrite A. cbn [negb].
  destruct (inclusive_step h i true I) as [X _]. destruct (X A) as (o & S1 & C1 & A1 & R1). clear X.
  destruct (inclusive h i true) as [h1 f1]. cbn [fst snd] in S1, C1. subst f1.
  destruct C1 as (I1 & F1 & O1 & N1). destruct N1 as [(_ & Co & N1)|[N _]]; [|congruence].
  pose proof (obj_mid h1 (objs h) o [] O1) as Ob.
  destruct (cartesian_step h1 (length (objs h)) true I1) as [(_ & N & _)|(S2 & p & C2 & A2 & R2)]; [discriminate N|].
  destruct (cartesian h1 (length (objs h)) true) as [h2 f2]. cbn [fst snd] in S2, C2. subst f2.
  rewrite Ob in A2, R2. destruct C2 as (I2 & F2 & O2 & N2). destruct N2 as [(_ & Cp & N2)|[N _]]; [|congruence].
  destruct (comms h) as [|c] eqn:K; [pose proof (proj1 (i_world h I)); lia|].
  rewrite O1, <- app_assoc in O2. cbn [app] in O2.
  destruct (release h2 (objs h) o [p] c I2 O2 A1 Co) as (h3 & D & I3 & O3 & C3 & F3). rewrite D. cbn [fst snd].
  exists (mkobj None None (o_root o) false), p. split; [reflexivity|]. split; [|exact R1].
  constructor; auto.
  - now rewrite F3, F2, F1, K.
  - intros c'. rewrite C3, N2, N1, K. intros L. exists p. split; [now left|]. split; [congruence|].
    rewrite Cp, N1. f_equal. lia.
  - rewrite C3, N2, N1, K. lia.
  - eexists. split; [reflexivity|]. intros p' [<-|[]]. left. cbn. congruence.
Qed.

Lemma cross_step h i j s r e : Inv h -> o_active (obj h i) || o_active (obj h j) = true -> s || r = true ->
  snd (union h i j true) = None ->
  exists t news root, snd (cross h i j (Groups s r e)) = None /\ Compound h (fst (cross h i j (Groups s r e))) t news /\
    (length news = 2%nat \/ length news = 1%nat) /\ o_root t = Some root /\ o_root (obj h i) = Some root.
Proof.
  intros I A SR U. unfold cross. rewrite A. cbn [negb].
  destruct (union_step h i j true I) as [(_ & u & root & C & Au & R & Ru)|(N & _)]; [|contradiction].
  destruct (union h i j true) as [h1 f1]. cbn [fst snd] in U, C. subst f1.
  destruct C as (I1 & F1 & O1 & [(_ & Cu & K1)|[N _]]); [|congruence].
  rewrite (obj_mid h1 (objs h) u [] O1), Ru.
  destruct (comms h) as [|c] eqn:K; [pose proof (proj1 (i_world h I)); lia|].
  set (body := let (gs, h) := if s then let (g, h) := new_group h1 in (Some g, h) else (None, h1) in
            let (gr, h) := if r then let (g, h) := new_group h in (Some g, h) else (None, h) in
            if s && r && e then let (c, h) := new_comm h in new_obj h (Some c) gs (Some root)
              else
                let (cs, h) := if s then let (c, h) := new_comm h in (Some c, h) else (None, h) in
                let (cr, h) := if r then let (c, h) := new_comm h in (Some c, h) else (None, h) in
                let h := if s then new_obj h cs gs (Some root) else new_obj h None None None in
                if r then new_obj h cr gr (Some root) else new_obj h None None None).
  assert (B : exists news, Inv body /\ objs body = objs h1 ++ news /\ freed_comms body = freed_comms h1 /\
     (forall c', (comms h1 <= c' < comms body)%nat -> exists p, In p news /\ o_active p = true /\ o_comm p = Some c') /\
     (comms h1 <= comms body)%nat /\ (length news = 2%nat \/ length news = 1%nat) /\
     (forall p, In p news -> o_root p = Some root \/ (o_active p = false /\ o_root p = None))).
  { clear - I1 SR. unfold body. destruct s, r; cbn [orb] in SR; try discriminate SR; cbn [andb new_group new_comm];
      [destruct e|..].
    - eexists. split; [|split; [reflexivity|split; [reflexivity|split; [|split; [cbn; lia|split; [right; reflexivity|]]]]]].
      + apply Inv_obj; [exact (Inv_comm _ (Inv_group _ (Inv_group h1 I1)))|].
        apply (fresh_above h1); auto; cbn; try lia; auto.
      + cbn. intros c' L. eexists. split; [left; reflexivity|]. split; [reflexivity|]. cbn. f_equal. lia.
      + intros p [<-|[]]. now left.
    - eexists. split; [|split; [cbn; rewrite <- app_assoc; reflexivity|split; [reflexivity|split; [|split; [cbn; lia|split; [left; reflexivity|]]]]]].
      + apply Inv_obj; [apply Inv_obj; [exact (Inv_comm _ (Inv_comm _ (Inv_group _ (Inv_group h1 I1))))|]|].
        * apply (fresh_above h1); auto; cbn; try lia; auto.
        * apply (fresh_above h1); auto; cbn; try lia.
          intros k o E. apply nth_snoc in E as [[E _]|[_ ->]]; [now left|]. right. cbn. split; intros X; injection X; lia.
      + cbn. intros c' L. destruct (Nat.eq_dec c' (comms h1)) as [->|N].
        * eexists. split; [left; reflexivity|]. now split.
        * eexists. split; [right; left; reflexivity|]. split; [reflexivity|]. cbn. f_equal. lia.
      + intros p [<-|[<-|[]]]; now left.
    - eexists. split; [|split; [cbn; rewrite <- app_assoc; reflexivity|split; [reflexivity|split; [|split; [cbn; lia|split; [left; reflexivity|]]]]]].
      + apply Inv_obj; [apply Inv_obj; [exact (Inv_comm _ (Inv_group h1 I1))|]|exact Logic.I].
        apply (fresh_above h1); auto; cbn; try lia; auto.
      + cbn. intros c' L. eexists. split; [left; reflexivity|]. split; [reflexivity|]. cbn. f_equal. lia.
      + intros p [<-|[<-|[]]]; [now left|now right].
    - eexists. split; [|split; [cbn; rewrite <- app_assoc; reflexivity|split; [reflexivity|split; [|split; [cbn; lia|split; [left; reflexivity|]]]]]].
      + apply Inv_obj; [apply Inv_obj; [exact (Inv_comm _ (Inv_group h1 I1))|exact Logic.I]|].
        apply (fresh_above h1); auto; cbn; try lia.
        intros k o E. apply nth_snoc in E as [[E _]|[_ ->]]; [now left|]. right. cbn. split; discriminate.
      + cbn. intros c' L. eexists. split; [right; left; reflexivity|]. split; [reflexivity|]. cbn. f_equal. lia.
      + intros p [<-|[<-|[]]]; [now right|now left]. }
  destruct B as (news & Ib & Ob & Fb & Nb & Lb & Len & Rb).
  rewrite O1, <- app_assoc in Ob. cbn [app] in Ob.
  destruct (release body (objs h) u news c Ib Ob Au Cu) as (h3 & D & I3 & O3 & C3 & F3).
  assert (E : match Groups s r e with
      | Mismatch => (h1, Some Exception)
      | Groups false false _ => (h1, Some Exception)
      | Groups _ _ _ => deactivate body (length (objs h)) end = (h3, None)).
  { destruct s, r; try discriminate SR; exact D. }
  exists (mkobj None None (o_root u) false), news, root.
  match goal with |- snd ?X = None /\ _ => assert (E' : X = (h3, None)) end.
  { rewrite <- E. clear - SR. subst body. destruct s, r; try discriminate SR; reflexivity. }
  rewrite E'. cbn [fst snd]. split; [reflexivity|]. split; [|split; [exact Len|split; [exact Ru|exact R]]].
  constructor; auto.
  - now rewrite F3, Fb, F1, K.
  - intros c' L. rewrite C3 in L. apply Nb. rewrite K1. lia.
  - rewrite C3, K. lia.
  - exists (Some root). split; [exact Ru|exact Rb].
Qed.

(** *** All calls *)

Definition no_leak (o : op) (h h' : heap) : Prop :=
  (forall c, (comms h <= c)%nat -> comm_alive h' c -> exists p, In p (returned o h') /\ o_active p = true /\ o_comm p = Some c) /\
  (forall c, (c < comms h)%nat -> (comm_alive h' c <-> comm_alive h c)).

Lemma obj_last h l a : objs h = l ++ [a] -> obj h (length (objs h) - 1) = a.
Proof.
  intros E. unfold obj. rewrite E, app_length. cbn [length].
  rewrite app_nth2 by lia. now replace (length l + 1 - 1 - length l)%nat with 0%nat by lia.
Qed.

Lemma created_no_leak o h h' p : Inv h -> Created h h' p -> In (obj h' (length (objs h') - 1)) (returned o h') -> no_leak o h h'.
Proof.
  intros I (I' & F & O & N) R. rewrite (obj_last h' _ p O) in R. split.
  - intros c L [L' _]. destruct N as [(A & C & K)|[A K]]; [|lia].
    exists p. split; [exact R|]. split; [exact A|]. rewrite C. f_equal. lia.
  - intros c L. unfold comm_alive. rewrite F. destruct N as [(_ & _ & ->)|[_ ->]]; intuition lia.
Qed.

Lemma compound_no_leak o h h' t news : Inv h -> Compound h h' t news -> (forall p, In p news -> In p (returned o h')) -> no_leak o h h'.
Proof.
  intros I [I' O T F C Le _] R. split.
  - intros c L [L' N]. rewrite F in N. destruct (C c) as (p & Hp & A & E).
    + split; [|exact L']. destruct (Nat.eq_dec c (comms h)) as [->|D]; [|lia]. destruct N. now left.
    + exists p. auto.
  - intros c L. unfold comm_alive. rewrite F. cbn. split; intros [X Y]; (split; [lia|]).
    + intros H. apply Y. now right.
    + intros [H|H]; [lia|contradiction].
Qed.

Lemma returned_cross i j k h l t news : objs h = l ++ t :: news -> (length news = 2 \/ length news = 1)%nat ->
  forall p, In p news -> In p (returned (OCross i j k) h).
Proof.
  intros O L p Hp. unfold returned, obj. rewrite O, app_length. cbn [length].
  destruct news as [|a [|b [|]]]; cbn in L; try lia; cbn [length].
  - destruct Hp as [<-|[]]. right. left. rewrite app_nth2 by lia. now replace (length l + 2 - 1 - length l)%nat with 1%nat by lia.
  - destruct Hp as [<-|[<-|[]]].
    + left. rewrite app_nth2 by lia. now replace (length l + 3 - 2 - length l)%nat with 1%nat by lia.
    + right. left. rewrite app_nth2 by lia. now replace (length l + 3 - 1 - length l)%nat with 2%nat by lia.
Qed.

Lemma Inv_world h : Inv h -> Inv (from_comm h 0).
Proof.
  intros I. unfold from_comm. cbn [new_group]. apply Inv_obj; [exact (Inv_group h I)|].
  cbn. split; [split; [apply (i_world h I)|apply (i_world h I)]|]. split; [now left|].
  exists (groups h). split; [reflexivity|]. split; [split; cbn; [lia|intros H; apply (i_freed h I) in H; lia]|].
  intros i o E G. destruct (i_group h I i o _ E G). lia.
Qed.

Lemma step_inv h o : Inv h -> Inv (fst (do_op h o)).
Proof.
  intros I. destruct o as [| |i m|i j m|i f|i|i|i j k|i]; cbn [do_op].
  - now apply Inv_world.
  - exact (proj1 (Created_cg h (Some (comms h)) I)).
  - destruct (inclusive_step h i m I) as [X Y]. destruct (o_active (obj h i)).
    + destruct (X eq_refl) as (o & _ & (Z & _) & _). exact Z.
    + now apply Y.
  - destruct (union_step h i j m I) as [(_ & o & r & (Z & _) & _)|(_ & -> & _)]; assumption.
  - destruct (cartesian_step h i f I) as [(_ & _ & _ & Z & _)|(_ & o & (Z & _) & _)]; exact Z.
  - destruct (subtopology_step h i I) as (_ & o & (Z & _) & _). exact Z.
  - destruct (o_active (obj h i)) eqn:A.
    + destruct (allreduction_step h i I A) as (t & p & _ & C & _). exact (cp_inv _ _ _ _ C).
    + unfold allreduction. rewrite A. cbn. exact (proj1 (Created_null h None I)).
  - destruct (o_active (obj h i) || o_active (obj h j)) eqn:A.
    2: { unfold cross. rewrite A. cbn [negb fst]. apply Inv_obj; [apply Inv_obj; [exact I|exact Logic.I]|exact Logic.I]. }
    destruct (union_step h i j true I) as [(U & o & r & (Z & _) & _)|(U & E & _)].
    + destruct k as [|s r' e].
      * unfold cross. rewrite A. cbn [negb]. destruct (union h i j true) as [h1 f1]. cbn [fst snd] in U, Z. now subst f1.
      * destruct (s || r') eqn:SR.
        -- destruct (cross_step h i j s r' e I A SR U) as (t & news & root & _ & C & _). exact (cp_inv _ _ _ _ C).
        -- unfold cross. rewrite A. cbn [negb]. destruct (union h i j true) as [h1 f1]. cbn [fst snd] in U, Z. subst f1.
           now destruct s, r'.
    + unfold cross. rewrite A. cbn [negb]. destruct (union h i j true) as [h1 [f1|]]; [|now destruct U]. cbn [fst] in *. now subst h1.
  - now apply Inv_deactivate.
Qed.

Lemma ops_inv os h : Inv h -> Inv (do_ops h os).
Proof. revert h. induction os as [|o os IH]; intros h I; cbn; [exact I|]. apply IH. now apply step_inv. Qed.

Lemma step_no_leak h o h' : Inv h -> do_op h o = (h', None) -> (forall i, o <> ODeactivate i) -> o <> OComm -> no_leak o h h'.
Proof.
  intros I E ND NC. destruct o as [| |i m|i j m|i f|i|i|i j k|i]; cbn [do_op] in E.
  - injection E as <-. split; [intros c L [L' _]; cbn in L'; lia|intros c L; reflexivity].
  - now destruct NC.
  - destruct (inclusive_step h i m I) as [X Y]. destruct (o_active (obj h i)).
    + destruct (X eq_refl) as (o & _ & C & _). rewrite E in C. apply (created_no_leak _ h h' o I C). now left.
    + destruct (Y eq_refl) as [Z _]. rewrite E in Z. discriminate Z.
  - destruct (union_step h i j m I) as [(_ & o & r & C & _)|(N & _)].
    + rewrite E in C. apply (created_no_leak _ h h' o I C). now left.
    + rewrite E in N. now destruct N.
  - destruct (cartesian_step h i f I) as [(_ & _ & Z & _)|(_ & o & C & _)].
    + rewrite E in Z. discriminate Z.
    + rewrite E in C. apply (created_no_leak _ h h' o I C). now left.
  - destruct (subtopology_step h i I) as (_ & o & C & _). rewrite E in C. apply (created_no_leak _ h h' o I C). now left.
  - destruct (o_active (obj h i)) eqn:A.
    + destruct (allreduction_step h i I A) as (t & p & _ & C & _). rewrite E in C. cbn [fst] in C.
      apply (compound_no_leak _ h h' t [p] I C). intros p' [<-|[]]. left.
      apply (obj_last h' (objs h ++ [t])). rewrite (cp_objs _ _ _ _ C), <- app_assoc. reflexivity.
    + unfold allreduction in E. rewrite A in E. cbn [negb] in E. injection E as <-.
      apply (created_no_leak _ h _ _ I (Created_null h None I)). now left.
  - destruct (o_active (obj h i) || o_active (obj h j)) eqn:A.
    2: { unfold cross in E. rewrite A in E. cbn [negb] in E. injection E as <-.
         split; [intros c L [L' _]; cbn in L'; lia|intros c L; reflexivity]. }
    destruct (snd (union h i j true)) as [f|] eqn:U.
    { unfold cross in E. rewrite A in E. cbn [negb] in E. destruct (union h i j true) as [h1 f1]. cbn in U. subst f1. discriminate E. }
    destruct k as [|s r e].
    { unfold cross in E. rewrite A in E. cbn [negb] in E. destruct (union h i j true) as [h1 f1]. cbn in U. subst f1. discriminate E. }
    destruct (s || r) eqn:SR.
    2: { unfold cross in E. rewrite A in E. cbn [negb] in E. destruct (union h i j true) as [h1 f1]. cbn in U. subst f1.
         destruct s, r; discriminate. }
    destruct (cross_step h i j s r e I A SR U) as (t & news & root & _ & C & L & _). rewrite E in C. cbn [fst] in C.
    apply (compound_no_leak _ h h' t news I C). intros p Hp.
    exact (returned_cross i j (Groups s r e) h' (objs h) t news (cp_objs _ _ _ _ C) L p Hp).
  - now destruct (ND i).
Qed.

Lemma step_handles h o : Inv h -> has_handles h o -> snd (do_op h o) <> Some NullHandle.
Proof.
  intros I H. destruct o as [| |i m|i j m|i f|i|i|i j k|i]; cbn [do_op has_handles] in *; try discriminate.
  - destruct (inclusive_step h i m I) as [X _]. destruct (X H) as (o & -> & _). discriminate.
  - destruct (union_step h i j m I) as [(-> & _)|(_ & _ & N)]; [discriminate|]. intros Z. destruct (N Z); tauto.
  - destruct (cartesian_step h i f I) as [(_ & _ & -> & _)|(-> & _)]; discriminate.
  - destruct (subtopology_step h i I) as (-> & _). discriminate.
  - destruct (o_active (obj h i)) eqn:A.
    + destruct (allreduction_step h i I A) as (t & p & -> & _). discriminate.
    + unfold allreduction. rewrite A. discriminate.
  - destruct (o_active (obj h i) || o_active (obj h j)) eqn:A.
    2: { unfold cross. rewrite A. discriminate. }
    destruct (union_step h i j true I) as [(U & _)|(U & _ & N)].
    + destruct k as [|s r e].
      { unfold cross. rewrite A. cbn [negb]. destruct (union h i j true) as [h1 f1]. cbn in U. subst f1. discriminate. }
      destruct (s || r) eqn:SR.
      * destruct (cross_step h i j s r e I A SR U) as (t & news & root & -> & _). discriminate.
      * unfold cross. rewrite A. cbn [negb]. destruct (union h i j true) as [h1 f1]. cbn in U. subst f1.
        destruct s, r; discriminate.
    + intros Z. apply H. unfold cross in Z. rewrite A in Z. cbn [negb] in Z.
      destruct (union h i j true) as [h1 [f1|]]; [|now destruct U]. cbn [snd] in *. subst. destruct (N Z); tauto.
  - unfold deactivate. destruct (o_active (obj h i)); discriminate.
Qed.

Lemma C67_proof : C67_statement.
Proof.
  intros os h. assert (I : Inv h) by (apply ops_inv, Inv_start). clearbody h.
  split; [apply (i_nodup h I)|]. split; [apply (i_nodup h I)|]. split; [apply (i_world h I)|].
  split; [exact (i_active h I)|].
  split.
  { intros i j o o' E E' N A A'. destruct (i_excl h I i j o o' E E' N A) as [X Y]. auto. }
  split; [|split; [exact (fun o => step_handles h o I)|exact (fun o h' => step_no_leak h o h' I)]].
  intros i L. pose proof (Inv_deactivate h i I) as I'. cbn [do_op].
  destruct (o_active (obj h i)) eqn:A.
  - destruct (deactivate_active h i I A) as (c & g & Ec & Eg & Lc & Lg & D). rewrite D in I' |- *. cbn [fst] in I'.
    eexists. split; [reflexivity|]. split; [|split].
    + unfold obj. cbn [objs]. now rewrite upd_nth_eq.
    + intros c' L'. unfold comm_alive. cbn [comms freed_comms]. rewrite Ec. split.
      * intros [X Y]. split; [split; [exact X|intros H; apply Y, in_or_app; now right]|].
        intros [Z N]. injection Z as ->. apply Y, in_or_app. left. destruct c'; [now destruct N|now left].
      * intros [[X Y] Z]. split; [exact X|]. intros H. apply in_app_or in H as [H|H]; [|contradiction].
        destruct c; [destruct H|]. destruct H as [<-|[]]. apply Z. split; [reflexivity|lia].
    + intros j N.
      assert (O : obj (mkheap (upd i (mkobj None None (o_root (obj h i)) false) (objs h)) (comms h) (groups h)
                   ((match c with O => [] | S _ => [c] end) ++ freed_comms h) (g :: freed_groups h)) j = obj h j).
      { unfold obj at 1. cbn [objs]. rewrite upd_nth_neq by lia. reflexivity. }
      split; [exact O|]. intros Aj. rewrite <- O in Aj. exact (i_active _ I' j _ (obj_nth _ j Aj) Aj).
  - unfold deactivate. rewrite A. exists h. split; [reflexivity|]. split; [exact A|]. split.
    + intros c Lc. split; [|tauto]. intros X. split; [exact X|]. intros [Y _].
      pose proof (live_comm_active h i I) as Z. rewrite A, Y in Z. now rewrite (live_comm_alive h c X) in Z.
    + intros j N. split; [reflexivity|]. intros Aj. exact (i_active _ I j _ (obj_nth _ j Aj) Aj).
Qed.

(** *** Teardown *)

Definition Owned (h : heap) : Prop :=
  forall c, comm_alive h c -> c = 0%nat \/ exists i, o_active (obj h i) = true /\ o_comm (obj h i) = Some c.

Lemma obj_app h h' l i : objs h' = objs h ++ l -> o_active (obj h i) = true -> obj h' i = obj h i.
Proof.
  intros E A. pose proof (obj_nth h i A) as X. apply obj_at. rewrite E, nth_error_app1; [exact X|].
  apply nth_error_Some. congruence.
Qed.

Lemma step_objs h o : Inv h -> (forall i, o <> ODeactivate i) -> exists l, objs (fst (do_op h o)) = objs h ++ l.
Proof.
  intros I ND. destruct o as [| |i m|i j m|i f|i|i|i j k|i]; cbn [do_op].
  - now eexists.
  - now eexists.
  - destruct (inclusive_step h i m I) as [X Y]. destruct (o_active (obj h i)).
    + destruct (X eq_refl) as (o & _ & (_ & _ & E & _) & _). eauto.
    + destruct (Y eq_refl) as (_ & _ & ->). exists []. now rewrite app_nil_r.
  - destruct (union_step h i j m I) as [(_ & o & r & (_ & _ & E & _) & _)|(_ & -> & _)]; [eauto|].
    exists []. now rewrite app_nil_r.
  - destruct (cartesian_step h i f I) as [(_ & _ & _ & _ & ->)|(_ & o & (_ & _ & E & _) & _)]; [|eauto].
    exists []. now rewrite app_nil_r.
  - destruct (subtopology_step h i I) as (_ & o & (_ & _ & E & _) & _). eauto.
  - destruct (o_active (obj h i)) eqn:A.
    + destruct (allreduction_step h i I A) as (t & p & _ & C & _). exact (ex_intro _ _ (cp_objs _ _ _ _ C)).
    + unfold allreduction. rewrite A. now eexists.
  - destruct (o_active (obj h i) || o_active (obj h j)) eqn:A.
    2: { unfold cross. rewrite A. cbn [negb fst new_obj objs]. rewrite <- app_assoc. now eexists. }
    destruct (union_step h i j true I) as [(U & o & r & (_ & _ & Z & _) & _)|(U & E & _)].
    + destruct k as [|s r' e].
      * unfold cross. rewrite A. cbn [negb]. destruct (union h i j true) as [h1 f1]. cbn [fst snd] in U, Z. subst f1. eauto.
      * destruct (s || r') eqn:SR.
        -- destruct (cross_step h i j s r' e I A SR U) as (t & news & root & _ & C & _). exact (ex_intro _ _ (cp_objs _ _ _ _ C)).
        -- unfold cross. rewrite A. cbn [negb]. destruct (union h i j true) as [h1 f1]. cbn [fst snd] in U, Z. subst f1.
           destruct s, r'; try discriminate SR. eauto.
    + unfold cross. rewrite A. cbn [negb]. destruct (union h i j true) as [h1 [f1|]]; [|now destruct U]. cbn [fst] in *. subst h1.
      exists []. now rewrite app_nil_r.
  - now destruct (ND i).
Qed.

Lemma returned_obj o h p : In p (returned o h) -> exists i, obj h i = p.
Proof. destruct o; cbn; intuition eauto. Qed.

Lemma step_owned h o : Inv h -> Owned h -> snd (do_op h o) = None -> Owned (fst (do_op h o)).
Proof.
  intros I W S. destruct (do_op h o) as [h' f] eqn:E. cbn [fst snd] in *. subst f.
  assert (D : (exists i, o = ODeactivate i) \/ forall i, o <> ODeactivate i).
  { destruct o; try (right; discriminate). left. now eexists. }
  destruct D as [(i & ->)|ND].
  - cbn [do_op] in E. destruct (o_active (obj h i)) eqn:A.
    2: { unfold deactivate in E. rewrite A in E. now injection E as <-. }
    destruct (deactivate_active h i I A) as (c0 & g & Ec & _ & _ & _ & D). rewrite D in E. injection E as <-.
    intros c [L N]. cbn [comms freed_comms] in L, N.
    destruct (W c) as [->|(j & Aj & Ej)]; [split; [exact L|intros H; apply N, in_or_app; now right]|now left|].
    destruct (Nat.eq_dec j i) as [->|Hj].
    + rewrite Ec in Ej. injection Ej as ->. destruct c; [now left|]. destruct N. now left.
    + right. exists j. unfold obj in *. cbn [objs]. rewrite upd_nth_neq by lia. now split.
  - destruct (step_objs h o I ND) as (l & O). rewrite E in O. cbn [fst] in O.
    assert (K : forall c, comm_alive h c -> c = 0%nat \/ exists i, o_active (obj h' i) = true /\ o_comm (obj h' i) = Some c).
    { intros c H. destruct (W c H) as [->|(i & A & C)]; [now left|]. right. exists i. now rewrite (obj_app h h' l i O A). }
    assert (C : o = OComm \/ o <> OComm) by (destruct o; (now left) || (right; discriminate)).
    destruct C as [->|NC].
    + cbn in E. injection E as <-. intros c [L N]. cbn in L, N. destruct (Nat.eq_dec c (comms h)) as [->|Hc].
      * right. exists (length (objs h)). unfold from_comm, new_group, new_obj, obj. cbn [objs]. rewrite app_nth2, Nat.sub_diag by lia. now split.
      * apply K. split; [lia|exact N].
    + destruct (step_no_leak h o h' I E ND NC) as [L1 L2]. intros c H.
      destruct (Nat.lt_ge_cases c (comms h)) as [Lc|Lc].
      * apply K. now apply L2.
      * right. destruct (L1 c Lc H) as (p & Hp & A & Ec). destruct (returned_obj o h' p Hp) as (i & <-). now exists i.
Qed.

Lemma ops_owned os h : Inv h -> Owned h -> runs h os -> Owned (do_ops h os).
Proof.
  revert h. induction os as [|o os IH]; intros h I W; cbn; [auto|]. intros [S R].
  apply IH; [now apply step_inv|now apply step_owned|exact R].
Qed.

Lemma deactivate_all n k h : Inv h -> Owned h -> let h' := do_ops h (map ODeactivate (seq k n)) in
  Inv h' /\ Owned h' /\ length (objs h') = length (objs h) /\
  (forall i, o_active (obj h' i) = true -> o_active (obj h i) = true /\ ~ (k <= i < k + n)%nat).
Proof.
  revert k h. induction n as [|n IH]; intros k h I W; cbn.
  - split; [exact I|]. split; [exact W|]. split; [reflexivity|]. intros i A. split; [exact A|lia].
  - assert (Ok : snd (deactivate h k) = None) by (unfold deactivate; now destruct (o_active (obj h k))).
    destruct (IH (S k) (fst (deactivate h k)) (step_inv h (ODeactivate k) I) (step_owned h (ODeactivate k) I W Ok)) as (I' & W' & L & A).
    assert (X : length (objs (fst (deactivate h k))) = length (objs h) /\
                forall i, o_active (obj (fst (deactivate h k)) i) = true -> o_active (obj h i) = true /\ i <> k).
    { destruct (o_active (obj h k)) eqn:Ak.
      - destruct (deactivate_active h k I Ak) as (c & g & _ & _ & _ & _ & ->). cbn [fst]. split; [cbn; apply upd_length|].
        intros i. unfold obj. cbn [objs]. destruct (Nat.eq_dec i k) as [->|N].
        + destruct (Nat.lt_ge_cases k (length (objs h))) as [Lk|Lk]; [now rewrite upd_nth_eq|].
          unfold obj in Ak. rewrite nth_overflow in Ak by exact Lk. discriminate Ak.
        + rewrite upd_nth_neq by lia. auto.
      - unfold deactivate. rewrite Ak. cbn [fst]. split; [reflexivity|]. intros i Ai. split; [exact Ai|]. intros ->. congruence. }
    destruct X as [X1 X2]. split; [exact I'|]. split; [exact W'|]. split; [etransitivity; [exact L|exact X1]|].
    intros i Ai. destruct (A i Ai) as [B1 B2]. destruct (X2 i B1) as [C1 C2]. split; [exact C1|lia].
Qed.

Lemma C67_teardown_proof : C67_teardown_statement.
Proof.
  intros os R h c H.
  assert (I : Inv h) by (apply ops_inv, Inv_start).
  assert (W : Owned h).
  { apply ops_owned; [apply Inv_start| |exact R]. intros c' [L _]. cbn in L. left. lia. }
  clearbody h. destruct (deactivate_all (length (objs h)) 0 h I W) as (I' & W' & L & A).
  destruct (W' c H) as [->|(i & Ai & _)]; [reflexivity|]. exfalso. destruct (A i Ai) as [B N].
  pose proof (obj_nth h i B) as E. assert (i < length (objs h))%nat by (apply nth_error_Some; congruence). lia.
Qed.

(** *** Roots *)

Definition Roots (l : list pobj) : Prop := forall o, In o l -> o_root o = Some 0%nat \/ (o_active o = false /\ o_root o = None).

Lemma roots_obj h i : Roots (objs h) -> o_root (obj h i) = Some 0%nat \/ (o_active (obj h i) = false /\ o_root (obj h i) = None).
Proof.
  intros R. unfold obj. destruct (nth_in_or_default i (objs h) (mkobj None None None false)) as [H|E]; [now apply R|].
  rewrite E. now right.
Qed.
Lemma Roots_app l l' : Roots l -> Roots l' -> Roots (l ++ l').
Proof. intros A B o H. apply in_app_or in H as [H|H]; auto. Qed.
Lemma Roots_one o : o_root o = Some 0%nat \/ (o_active o = false /\ o_root o = None) -> Roots [o].
Proof. now intros H p [<-|[]]. Qed.

Lemma compound_roots h h' t news i : Compound h h' t news -> o_root t = o_root (obj h i) -> 
  Roots (objs h) -> o_root (obj h i) = Some 0%nat -> Roots (objs h').
Proof.
  intros C E R Z. rewrite (cp_objs _ _ _ _ C). apply Roots_app; [exact R|].
  destruct (cp_roots _ _ _ _ C) as (r & Et & Hn). intros p [<-|Hp]; [left; congruence|].
  destruct (Hn p Hp) as [X|X]; [left; congruence|now right].
Qed.

Lemma step_roots h o : Inv h -> Roots (objs h) -> o <> OComm -> Roots (objs (fst (do_op h o))).
Proof.
  intros I R NC. destruct o as [| |i m|i j m|i f|i|i|i j k|i]; cbn [do_op].
  - cbn. apply Roots_app; [exact R|]. apply Roots_one. now left.
  - now destruct NC.
  - destruct (inclusive_step h i m I) as [X Y]. pose proof (roots_obj h i R) as Ri. destruct (o_active (obj h i)).
    + destruct (X eq_refl) as (o & _ & (_ & _ & -> & _) & _ & Ro). apply Roots_app; [exact R|]. apply Roots_one.
      rewrite Ro. destruct Ri as [->|[N _]]; [now left|discriminate N].
    + destruct (Y eq_refl) as (_ & _ & ->). exact R.
  - destruct (union_step h i j m I) as [(_ & o & r & (_ & _ & -> & _) & _ & Er & Ro)|(_ & -> & _)]; [|exact R].
    apply Roots_app; [exact R|]. apply Roots_one. left. destruct (roots_obj h i R) as [E|[_ E]]; congruence.
  - destruct (cartesian_step h i f I) as [(_ & _ & _ & _ & ->)|(_ & o & (_ & _ & -> & _) & Ao & Ro)]; [exact R|].
    apply Roots_app; [exact R|]. apply Roots_one. rewrite Ao, Ro. now apply roots_obj.
  - destruct (subtopology_step h i I) as (_ & o & (_ & _ & -> & _) & Ao & Ro).
    apply Roots_app; [exact R|]. apply Roots_one. rewrite Ao, Ro. now apply roots_obj.
  - destruct (o_active (obj h i)) eqn:A.
    + destruct (allreduction_step h i I A) as (t & p & _ & C & Rt).
      apply (compound_roots _ _ _ _ i C Rt R). destruct (roots_obj h i R) as [E|[N _]]; congruence.
    + unfold allreduction. rewrite A. cbn. apply Roots_app; [exact R|]. apply Roots_one. now right.
  - destruct (o_active (obj h i) || o_active (obj h j)) eqn:A.
    2: { unfold cross. rewrite A. cbn. apply Roots_app; [apply Roots_app; [exact R|]|]; apply Roots_one; now right. }
    destruct (union_step h i j true I) as [(U & o & r & (_ & _ & Z & _) & _ & Er & Ro)|(U & E & _)].
    + assert (E0 : Some r = Some 0%nat) by (destruct (roots_obj h i R) as [E|[_ E]]; congruence).
      assert (R1 : Roots (objs (fst (union h i j true)))).
      { rewrite Z. apply Roots_app; [exact R|]. apply Roots_one. left. congruence. }
      destruct k as [|s r' e].
      * unfold cross. rewrite A. cbn [negb]. destruct (union h i j true) as [h1 f1]. cbn [fst snd] in *. now subst f1.
      * destruct (s || r') eqn:SR.
        -- destruct (cross_step h i j s r' e I A SR U) as (t & news & root & _ & C & _ & Rt & Ri).
           apply (compound_roots _ _ _ _ i C); [congruence|exact R|congruence].
        -- unfold cross. rewrite A. cbn [negb]. destruct (union h i j true) as [h1 f1]. cbn [fst snd] in *. subst f1.
           now destruct s, r'.
    + unfold cross. rewrite A. cbn [negb]. destruct (union h i j true) as [h1 [f1|]]; [|now destruct U]. cbn [fst] in *. now subst h1.
  - destruct (o_active (obj h i)) eqn:A.
    + destruct (deactivate_active h i I A) as (c & g & _ & _ & _ & _ & ->). cbn [fst objs].
      intros o H. apply In_nth_error in H as (k & E). apply nth_upd_case in E as [(_ & -> & _)|(_ & E)].
      * left. cbn. destruct (roots_obj h i R) as [X|[N _]]; congruence.
      * apply R. now apply nth_error_In in E.
    + unfold deactivate. now rewrite A.
Qed.

Lemma ops_roots os h : Inv h -> Roots (objs h) -> ~ In OComm os -> Roots (objs (do_ops h os)).
Proof.
  revert h. induction os as [|o os IH]; intros h I R N; cbn; [exact R|].
  apply IH; [now apply step_inv| |intros H; apply N; now right].
  apply step_roots; [exact I|exact R|]. intros ->. apply N. now left.
Qed.

Lemma C67_world_proof : C67_world_statement.
Proof.
  intros os N h. assert (I : Inv h) by (apply ops_inv, Inv_start).
  assert (R : Roots (objs h)) by (apply ops_roots; [apply Inv_start|intros o []|exact N]).
  clearbody h. split.
  - intros i A. destruct (group_active h i I A) as (g & ->). split; [discriminate|].
    destruct (roots_obj h i R) as [->|[X _]]; [discriminate|congruence].
  - intros i j Gi Ri Gj Rj.
    assert (Ei : o_root (obj h i) = Some 0%nat) by (destruct (roots_obj h i R) as [->|[_ X]]; [reflexivity|contradiction]).
    assert (Ej : o_root (obj h j) = Some 0%nat) by (destruct (roots_obj h j R) as [->|[_ X]]; [reflexivity|contradiction]).
    assert (U : forall m, snd (union h i j m) = None).
    { intros m. unfold union. rewrite Ei, Ej, (live_group_some h i I), (live_group_some h j I).
      rewrite (live_comm_alive h 0) by (split; apply (i_world h I)). cbn [andb Nat.eqb negb].
      destruct (o_group (obj h i)); [|now destruct Gi]. destruct (o_group (obj h j)); [|now destruct Gj].
      cbn [andb negb new_group]. now destruct m. }
    split; [exact U|]. intros s r e SR. cbn [do_op].
    destruct (o_active (obj h i) || o_active (obj h j)) eqn:A.
    + destruct (cross_step h i j s r e I A SR (U true)) as (t & news & root & X & _). exact X.
    + unfold cross. now rewrite A.
Qed.

(** Nothing is released twice; active partitions are usable and own what they
    hold; releasing one affects no other; no communicator is left behind. *)
Theorem C67_lifetimes : C67_statement.
Proof. exact C67_proof. Qed.
Theorem C67_world : C67_world_statement.
Proof. exact C67_world_proof. Qed.

Theorem C67_teardown : C67_teardown_statement.
Proof. exact C67_teardown_proof. Qed.

(** *** Refutations *)

(** Groups are left behind: the groups that a call created and did not release
    belong to the partitions it returned. *)
Definition no_group_leak : Prop :=
  forall os o h', let h := do_ops start os in do_op h o = (h', None) -> (forall i, o <> ODeactivate i) ->
  forall g, (groups h <= g)%nat -> group_alive h' g -> exists p, In p (returned o h') /\ o_group p = Some g.

(** create_broadcast_partition_to from a partition to itself: every worker has
    identical send and receive groups, and the second is never released. *)
Theorem C67_groups_refuted : ~ no_group_leak.
Proof.
  intros H. specialize (H [OWorld; OCartesian 0 true] (OCross 1 1 (Groups true true true))).
  destruct (H _ eq_refl ltac:(discriminate) 4%nat) as (p & Hp & E).
  - vm_compute. lia.
  - split; [vm_compute; lia|]. vm_compute. intuition discriminate.
  - vm_compute in Hp. destruct Hp as [<-|[<-|[]]]; discriminate E.
Qed.

(** Groups are not all released with the partitions either: a worker outside a
    partition keeps the group it was made with. *)
Definition group_teardown : Prop :=
  forall os, runs start os -> let h := do_ops start os in
  forall g, ~ group_alive (do_ops h (map ODeactivate (seq 0 (length (objs h))))) g.

Theorem C67_inactive_groups_refuted : ~ group_teardown.
Proof.
  intros H. apply (H [OWorld; OInclusive 0 false] ltac:(now vm_compute) 1%nat).
  split; [vm_compute; lia|]. vm_compute. intuition discriminate.
Qed.

(** Nor is a communicator released when the shapes do not match: no partition is
    returned, and the union stays. *)
Definition no_leak_on_exceptions : Prop :=
  forall os o h' f, let h := do_ops start os in do_op h o = (h', Some f) ->
  forall c, (comms h <= c)%nat -> ~ comm_alive h' c.

Theorem C67_exceptions_refuted : ~ no_leak_on_exceptions.
Proof.
  intros H. apply (H [OWorld; OCartesian 0 true] (OCross 1 1 Mismatch) _ _ eq_refl 2%nat).
  - vm_compute. lia.
  - split; [vm_compute; lia|]. vm_compute. tauto.
Qed.

(** With another root than MPI.COMM_WORLD, releasing the first partition breaks
    those derived from it: they stay active, but have no unions. *)
Definition union_of_active : Prop :=
  forall os, let h := do_ops start os in
  forall i, o_active (obj h i) = true -> snd (do_op h (OUnion i i true)) = None.

Theorem C67_root_refuted : ~ union_of_active.
Proof. intros H. specialize (H [OComm; OCartesian 0 true; ODeactivate 0] 1%nat eq_refl). discriminate H. Qed.

(** Layers as the test suite builds them: a base of two workers of the world, a
    partition of one worker (inactive here), broadcast partitions, releases in
    any order. *)
Definition session : list op :=
  [OWorld; OInclusive 0 true; OCartesian 1 true; OInclusive 0 false; OCartesian 3 true;
   OCross 4 2 (Groups false true false); OAllreduction 2; ODeactivate 2; ODeactivate 1; ODeactivate 1; ODeactivate 0].

Example C67_example :
  let h := do_ops start session in
  ~ In OComm session /\ runs start session /\ map o_active (objs h) = [false; false; false; false; false; false; false; true; false; true] /\
  freed_comms h = [1; 2; 5; 3]%nat /\ comms h = 7%nat /\
  o_comm (obj h 7) = Some 4%nat /\ o_comm (obj h 9) = Some 6%nat /\
  snd (do_op h (OUnion 7 9 true)) = None /\
  o_group (obj h 4) <> None /\ o_root (obj h 4) <> None /\ snd (do_op h (OUnion 4 9 false)) = None /\
  snd (do_op h (OInclusive 2 true)) = Some NullHandle.
Proof. vm_compute. repeat split; intuition discriminate. Qed.

Print Assumptions C67_lifetimes.
Print Assumptions C67_world.
Print Assumptions C67_teardown.
