(** Collective communication: every worker runs a program of [Post c] (enter the
    next collective operation on communicator [c]) and [Wait c n] (the [n]-th
    operation on [c] must complete here).  A wait is enabled once every member of
    the communicator has posted [n] operations on it; this is the most
    pessimistic behaviour MPI allows (an operation may complete earlier, which
    only enables more steps).  Workers advance in any order.

    Models MPI collectives (blocking ones as a post followed by the wait;
    Ibcast/Ireduce with a later Wait as separate instructions). *)

From Coq Require Import Sorting.Sorted.
From Verif Require Import Prelude.

Section Collective.
  Context {C : Type}.
  Variable C_eq_dec : forall a b : C, {a = b} + {a <> b}.

  Inductive instr : Type :=
  | Post (c : C)
  | Wait (c : C) (n : nat).

  Definition is_post (c : C) (i : instr) : bool :=
    match i with Post c' => if C_eq_dec c c' then true else false | Wait _ _ => false end.

  Definition count_post (c : C) (p : list instr) : nat := length (filter (is_post c) p).

  Variable workers : list Z.
  Variable prog : Z -> list instr.
  Variable members : C -> list Z.

  (** Number of instructions each worker has executed. *)
  Definition cstate := Z -> nat.
  Definition cinit : cstate := fun _ => 0%nat.

  Definition posted (s : cstate) (w : Z) (c : C) : nat := count_post c (firstn (s w) (prog w)).

  Definition enabled (s : cstate) (w : Z) : Prop :=
    match nth_error (prog w) (s w) with
    | None => False
    | Some (Post _) => True
    | Some (Wait c n) => forall m, In m (members c) -> (n <= posted s m c)%nat
    end.

  Definition advance (s : cstate) (w : Z) : cstate :=
    fun u => if Z.eq_dec u w then S (s u) else s u.

  Definition cstep (s s' : cstate) : Prop :=
    exists w, In w workers /\ enabled s w /\ s' = advance s w.

  Inductive creach : cstate -> Prop :=
  | creach_init : creach cinit
  | creach_step s s' : creach s -> cstep s s' -> creach s'.

  Definition finished (s : cstate) (w : Z) : Prop := s w = length (prog w).
  Definition all_finished (s : cstate) : Prop := forall w, In w workers -> finished s w.

  (** Every operation a worker waits for is posted by all members of the
      communicator. *)
  Definition matched_calls : Prop :=
    forall w c n, In w workers -> In (Wait c n) (prog w) ->
    forall m, In m (members c) -> In m workers /\ (n <= count_post c (prog m))%nat.

  (** Whatever a worker waits for before entering an operation has a smaller
      level than the operation. *)
  Definition levelled (level : C -> nat -> nat) : Prop :=
    forall w c' n' c i j, In w workers -> (i < j)%nat ->
    nth_error (prog w) i = Some (Wait c' n') -> nth_error (prog w) j = Some (Post c) ->
    (level c' n' < level c (count_post c (firstn (S j) (prog w))))%nat.

  Lemma creach_le s : creach s -> forall w, (s w <= length (prog w))%nat.
  Proof.
    induction 1 as [|s s' Hs IH (w & Hw & He & ->)]; intros u.
    - unfold cinit. lia.
    - unfold advance. destruct (Z.eq_dec u w) as [->|N]; auto.
      unfold enabled in He. destruct (nth_error (prog w) (s w)) eqn:E; [|easy].
      assert ((s w < length (prog w))%nat) by (apply nth_error_Some; congruence). lia.
  Qed.

  Lemma count_post_app c p q : count_post c (p ++ q) = (count_post c p + count_post c q)%nat.
  Proof. unfold count_post. now rewrite filter_app, app_length. Qed.

  Lemma count_post_firstn_le c p k : (count_post c (firstn k p) <= count_post c p)%nat.
  Proof. rewrite <- (firstn_skipn k p) at 2. rewrite count_post_app. lia. Qed.

  (** The [n]-th post lies behind position [k] if fewer than [n] are before it. *)
  Lemma nth_post_after c p k n : (count_post c (firstn k p) < n <= count_post c p)%nat ->
    exists j, (k <= j)%nat /\ nth_error p j = Some (Post c) /\ count_post c (firstn (S j) p) = n.
  Proof.
    revert k n. induction p as [|i p IH]; intros k n H.
    - rewrite firstn_nil in H. unfold count_post in H. simpl in H. lia.
    - destruct k as [|k].
      + simpl in H. change (i :: p) with ([i] ++ p) in H. rewrite count_post_app in H.
        destruct (is_post c i) eqn:E.
        * assert (E1 : count_post c [i] = 1%nat) by (unfold count_post; simpl; now rewrite E).
          destruct (Nat.eq_dec n 1) as [->|Hn].
          -- exists 0%nat. split; [lia|]. simpl. rewrite E1. split; auto.
             destruct i as [c'|]; simpl in E; [|discriminate].
             destruct (C_eq_dec c c'); congruence.
          -- destruct (IH 0%nat (n - 1)%nat) as (j & Hj & Ej & Cj); [simpl; unfold count_post at 1; simpl; lia|].
             exists (S j). split; [lia|]. split; auto.
             change (firstn (S (S j)) (i :: p)) with ([i] ++ firstn (S j) p).
             rewrite count_post_app. lia.
        * assert (E1 : count_post c [i] = 0%nat) by (unfold count_post; simpl; now rewrite E).
          destruct (IH 0%nat n) as (j & Hj & Ej & Cj); [simpl; unfold count_post at 1; simpl; unfold count_post at 1 in H; simpl in H; lia|].
          exists (S j). split; [lia|]. split; auto.
          change (firstn (S (S j)) (i :: p)) with ([i] ++ firstn (S j) p).
          rewrite count_post_app. lia.
      + change (firstn (S k) (i :: p)) with ([i] ++ firstn k p) in H.
        change (i :: p) with ([i] ++ p) in H. rewrite !count_post_app in H.
        destruct (IH k (n - count_post c [i])%nat) as (j & Hj & Ej & Cj); [lia|].
        exists (S j). split; [lia|]. split; auto.
        change (firstn (S (S j)) (i :: p)) with ([i] ++ firstn (S j) p).
        rewrite count_post_app. lia.
  Qed.

  (** No reachable state is stuck. *)
  Theorem collective_progress level s : matched_calls -> levelled level -> creach s ->
    ~ all_finished s -> exists s', cstep s s'.
  Proof.
    intros HM HL Hr Hnf.
    assert (Hle := creach_le s Hr).
    assert (Hdec : forall w, In w workers -> enabled s w \/ ~ enabled s w).
    { intros w _. unfold enabled. destruct (nth_error (prog w) (s w)) as [[c|c n]|]; auto.
      assert (D : forall l, (forall m, In m l -> (n <= posted s m c)%nat) \/
                            ~ (forall m, In m l -> (n <= posted s m c)%nat)).
      { induction l as [|a l [IH|IH]].
        - left. easy.
        - destruct (le_lt_dec n (posted s a c)).
          + left. intros m [<-|Hm]; auto.
          + right. intros H. specialize (H a (or_introl eq_refl)). lia.
        - right. intros H. apply IH. intros m Hm. apply H. now right. }
      apply D. }
    (* some worker is enabled, by descent on the level of what is waited for *)
    assert (HD : forall l w c n, level c n = l -> In w workers ->
      nth_error (prog w) (s w) = Some (Wait c n) -> exists u, In u workers /\ enabled s u).
    { induction l as [l IH] using lt_wf_ind. intros w c n El Hw Hi.
      destruct (Hdec w Hw) as [He|He]; [eauto|].
      assert (exists m, In m (members c) /\ (posted s m c < n)%nat) as (m & Hm & Hp).
      { unfold enabled in He. rewrite Hi in He.
        clear - He. induction (members c) as [|a l IH].
        - exfalso. apply He. easy.
        - destruct (le_lt_dec n (posted s a c)) as [L|L].
          + destruct IH as (m & Hm & Hp).
            * intros H. apply He. intros m [<-|Hm]; auto.
            * exists m. split; auto. now right.
          + exists a. split; auto. now left. }
      destruct (HM w c n Hw) with (m := m) as [Hmw Hcnt]; auto.
      { eapply nth_error_In; eauto. }
      destruct (nth_post_after c (prog m) (s m) n) as (j & Hj & Ej & Cj).
      { unfold posted in Hp. lia. }
      assert (Hlt : (s m < length (prog m))%nat).
      { assert ((j < length (prog m))%nat) by (apply nth_error_Some; congruence). lia. }
      destruct (nth_error (prog m) (s m)) as [[c'|c' n']|] eqn:Ei.
      - exists m. split; auto. unfold enabled. now rewrite Ei.
      - assert (j <> s m) by (intros ->; congruence).
        eapply (IH (level c' n')); eauto. subst l. rewrite <- Cj.
        apply (HL m c' n' c (s m) j); auto. lia.
      - apply nth_error_None in Ei. lia. }
    assert (Hex : exists w, In w workers /\ s w <> length (prog w)).
    { clear - Hnf. unfold all_finished, finished in Hnf.
      induction workers as [|a l IH].
      - exfalso. apply Hnf. easy.
      - destruct (Nat.eq_dec (s a) (length (prog a))) as [E|E].
        + destruct IH as (w & Hw & H).
          * intros H. apply Hnf. intros w [<-|Hw]; auto.
          * exists w. split; auto. now right.
        + exists a. split; auto. now left. }
    destruct Hex as (w & Hw & Hne). specialize (Hle w).
    destruct (nth_error (prog w) (s w)) as [[c|c n]|] eqn:E.
    - exists (advance s w), w. repeat split; auto. unfold enabled. now rewrite E.
    - destruct (HD (level c n) w c n eq_refl Hw E) as (u & Hu & Heu).
      exists (advance s u), u. auto.
    - apply nth_error_None in E. lia.
  Qed.

  (** Every execution is finite. *)
  Definition remaining (s : cstate) (l : list Z) : nat :=
    fold_right (fun w acc => (length (prog w) - s w + acc)%nat) 0%nat l.

  Lemma remaining_advance_notin s w l : ~ In w l -> remaining (advance s w) l = remaining s l.
  Proof.
    induction l as [|a l IH]; simpl; intros H; auto. rewrite IH by tauto.
    unfold advance. destruct (Z.eq_dec a w); [subst; tauto|auto].
  Qed.

  Lemma remaining_advance s w l : In w l -> NoDup l -> (s w < length (prog w))%nat ->
    (remaining (advance s w) l < remaining s l)%nat.
  Proof.
    induction l as [|a l IH]; simpl; intros Hin HN Hlt; [easy|]. inv HN.
    destruct (Z.eq_dec a w) as [->|N].
    - rewrite remaining_advance_notin by auto. unfold advance. destruct (Z.eq_dec w w); [|congruence]. lia.
    - destruct Hin as [->|Hin]; [congruence|]. specialize (IH Hin H2 Hlt).
      unfold advance at 1. destruct (Z.eq_dec a w); [congruence|]. lia.
  Qed.

  Theorem collective_terminates s : NoDup workers -> Acc (fun s2 s1 => cstep s1 s2) s.
  Proof.
    intros HN. remember (remaining s workers) as k eqn:Ek. revert s Ek.
    induction k as [k IH] using lt_wf_ind. intros s ->. constructor. intros s' (w & Hw & He & ->).
    eapply IH; [|reflexivity]. apply remaining_advance; auto.
    unfold enabled in He. destruct (nth_error (prog w) (s w)) eqn:E; [|easy].
    apply nth_error_Some. congruence.
  Qed.

  (** Hence every maximal execution ends with all programs complete. *)
  Theorem collective_completes level s : NoDup workers -> matched_calls -> levelled level ->
    creach s -> (forall s', ~ cstep s s') -> all_finished s.
  Proof.
    intros HN HM HL Hr Hmax. intros w Hw. unfold finished.
    destruct (Nat.eq_dec (s w) (length (prog w))) as [E|E]; auto. exfalso.
    destruct (collective_progress level s HM HL Hr) as [s' Hs']; [|eapply Hmax; eauto].
    intros H. apply E. now apply H.
  Qed.

End Collective.

Arguments instr C : clear implicits.

(** * Programs of blocking calls *)

Section BlockingPrograms.
  Context {C : Type}.
  Variable C_eq_dec : forall a b : C, {a = b} + {a <> b}.

  Fixpoint blocking (hist calls : list C) : list (instr C) :=
    match calls with
    | [] => []
    | c :: r => Post c :: Wait c (S (count_occ C_eq_dec hist c)) :: blocking (c :: hist) r
    end.

  Lemma count_post_blocking c hist calls :
    count_post C_eq_dec c (blocking hist calls) = count_occ C_eq_dec calls c.
  Proof.
    revert hist. induction calls as [|a r IH]; intros hist; simpl; auto.
    unfold count_post in *. simpl. destruct (C_eq_dec c a) as [->|N].
    - simpl. destruct (C_eq_dec a a); [|congruence]. now rewrite IH.
    - destruct (C_eq_dec a c); [congruence|]. apply IH.
  Qed.

  Lemma blocking_nth_post hist calls j c : nth_error (blocking hist calls) j = Some (Post c) ->
    exists k, j = (2 * k)%nat /\ nth_error calls k = Some c /\
      count_post C_eq_dec c (firstn (S j) (blocking hist calls)) = count_occ C_eq_dec (firstn (S k) calls) c.
  Proof.
    revert hist j. induction calls as [|a r IH]; intros hist j H.
    - destruct j; discriminate.
    - destruct j as [|[|j]]; simpl in H.
      + inv H. exists 0%nat. split; [lia|]. split; auto. simpl. unfold count_post. simpl.
        destruct (C_eq_dec c c); [reflexivity|congruence].
      + discriminate.
      + destruct (IH _ _ H) as (k & -> & Hk & Ck). exists (S k). split; [lia|]. split; auto.
        replace (S (S (S (2 * k)))) with (S (S (S (2 * k)))) by lia.
        change (firstn (S (S (S (2 * k)))) (blocking hist (a :: r))) with
          (Post a :: Wait a (S (count_occ C_eq_dec hist a)) :: firstn (S (2 * k)) (blocking (a :: hist) r)).
        change (firstn (S (S k)) (a :: r)) with (a :: firstn (S k) r).
        unfold count_post in *. cbn [filter is_post count_occ].
        destruct (C_eq_dec c a) as [->|N].
        * destruct (C_eq_dec a a); [|congruence]. cbn [length]. now rewrite Ck.
        * destruct (C_eq_dec a c); [congruence|]. exact Ck.
  Qed.

  Lemma blocking_nth_wait hist calls j c n : nth_error (blocking hist calls) j = Some (Wait c n) ->
    exists k, j = (2 * k + 1)%nat /\ nth_error calls k = Some c /\
      n = (count_occ C_eq_dec hist c + count_occ C_eq_dec (firstn (S k) calls) c)%nat.
  Proof.
    revert hist j. induction calls as [|a r IH]; intros hist j H.
    - destruct j; discriminate.
    - destruct j as [|[|j]]; simpl in H.
      + discriminate.
      + inv H. exists 0%nat. split; [lia|]. split; auto. simpl.
        destruct (C_eq_dec c c); [lia|congruence].
      + destruct (IH _ _ H) as (k & -> & Hk & Ck). exists (S k). split; [lia|]. split; auto.
        change (firstn (S (S k)) (a :: r)) with (a :: firstn (S k) r).
        cbn [count_occ] in *. destruct (C_eq_dec a c); lia.
  Qed.

End BlockingPrograms.

(** Blocking programs: sufficient conditions on the lists of calls. *)
Section Blocking.
  Context {C : Type}.
  Variable C_eq_dec : forall a b : C, {a = b} + {a <> b}.
  Variable workers : list Z.
  Variable calls : Z -> list C.

  Definition bprog (w : Z) : list (instr C) := blocking C_eq_dec [] (calls w).

  Lemma blocking_levelled level :
    (forall w i j c' c, In w workers -> (i < j)%nat ->
       nth_error (calls w) i = Some c' -> nth_error (calls w) j = Some c ->
       (level c' (count_occ C_eq_dec (firstn (S i) (calls w)) c') <
        level c (count_occ C_eq_dec (firstn (S j) (calls w)) c))%nat) ->
    levelled C_eq_dec workers bprog level.
  Proof.
    intros H w c' n' c i j Hw Hij Hi Hj.
    apply blocking_nth_wait in Hi as (k1 & -> & Hk1 & ->).
    unfold bprog in *. apply blocking_nth_post in Hj as (k2 & -> & Hk2 & ->).
    apply (H w k1 k2 c' c); auto. lia.
  Qed.

  Variable members : C -> list Z.

  Lemma blocking_matched :
    (forall w c, In w workers -> In c (calls w) -> forall m, In m (members c) ->
       In m workers /\ (count_occ C_eq_dec (calls w) c <= count_occ C_eq_dec (calls m) c)%nat) ->
    matched_calls C_eq_dec workers bprog members.
  Proof.
    intros H w c n Hw Hin m Hm. apply In_nth_error in Hin as [j Hj].
    apply blocking_nth_wait in Hj as (k & -> & Hk & ->).
    destruct (H w c Hw (nth_error_In _ _ Hk) m Hm) as [Hmw Hc]. split; auto.
    unfold bprog. rewrite count_post_blocking. simpl (count_occ C_eq_dec [] c).
    assert (count_occ C_eq_dec (firstn (S k) (calls w)) c <= count_occ C_eq_dec (calls w) c)%nat.
    { rewrite <- (firstn_skipn (S k) (calls w)) at 2. rewrite count_occ_app. lia. }
    lia.
  Qed.
End Blocking.

(** The calls of a program with their occurrence numbers. *)
Section Numbered.
  Context {C : Type}.
  Variable C_eq_dec : forall a b : C, {a = b} + {a <> b}.

  Fixpoint numbered (hist calls : list C) : list (C * nat) :=
    match calls with
    | [] => []
    | c :: r => (c, S (count_occ C_eq_dec hist c)) :: numbered (c :: hist) r
    end.

  Lemma numbered_nth hist calls i c : nth_error calls i = Some c ->
    nth_error (numbered hist calls) i =
    Some (c, (count_occ C_eq_dec hist c + count_occ C_eq_dec (firstn (S i) calls) c)%nat).
  Proof.
    revert hist i. induction calls as [|a r IH]; intros hist i H; destruct i as [|i]; try discriminate.
    - simpl in H. inv H. simpl. destruct (C_eq_dec c c); [|congruence]. do 2 f_equal. lia.
    - simpl in H. cbn [numbered nth_error]. rewrite (IH (a :: hist) i H).
      change (firstn (S (S i)) (a :: r)) with (a :: firstn (S i) r).
      cbn [count_occ]. destruct (C_eq_dec a c); do 2 f_equal; lia.
  Qed.

  Lemma sorted_nth {A} (R : A -> A -> Prop) l i j a b : Sorted.StronglySorted R l -> (i < j)%nat ->
    nth_error l i = Some a -> nth_error l j = Some b -> R a b.
  Proof.
    intros H. revert i j. induction H as [|x l Hl IH Hx]; intros i j Hij Ha Hb.
    - destruct i; discriminate.
    - destruct j as [|j]; [lia|]. simpl in Hb. destruct i as [|i]; simpl in Ha.
      + inv Ha. rewrite Forall_forall in Hx. apply Hx. eapply nth_error_In; eauto.
      + apply (IH i j); auto. lia.
  Qed.

  Lemma sorted_levelled workers calls (level : C -> nat -> nat) :
    (forall w, In w workers ->
       Sorted.StronglySorted lt (map (fun cn => level (fst cn) (snd cn)) (numbered [] (calls w)))) ->
    levelled C_eq_dec workers (bprog C_eq_dec calls) level.
  Proof.
    intros H. apply blocking_levelled. intros w i j c' c Hw Hij Hi Hj.
    eapply (sorted_nth lt _ i j); eauto.
    - erewrite map_nth_error; [|apply numbered_nth; eauto]. reflexivity.
    - erewrite map_nth_error; [|apply numbered_nth; eauto]. reflexivity.
  Qed.
End Numbered.
