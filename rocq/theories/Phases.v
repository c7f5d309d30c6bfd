(** Composition of collective programs.  A phase is a program per worker; a
    request is awaited in the phase that made it, so the waits of a phase count
    the operations of that phase only and are renumbered when the phase runs
    after others ([seqp]).  Phases that are deadlock free on their own, in the
    sense of [good], can be run one after the other in any number without any
    synchronisation between them. *)

From Verif Require Import Prelude Collective.

Section Phases.
  Context {C : Type}.
  Variable C_eq_dec : forall a b : C, {a = b} + {a <> b}.
  Notation cpost := (count_post C_eq_dec).

  Definition renumber (base : C -> nat) (i : instr C) : instr C :=
    match i with Post c => Post c | Wait c n => Wait c (base c + n) end.

  (** [p] and then [q]. *)
  Definition seqp (p q : list (instr C)) : list (instr C) :=
    p ++ map (renumber (fun c => cpost c p)) q.

  Variable workers : list Z.
  Variable members : C -> list Z.

  (** No reachable state is stuck, every execution is finite, every maximal
      execution completes on all workers. *)
  Definition deadlock_free (prog : Z -> list (instr C)) : Prop :=
    (forall s, creach C_eq_dec workers prog members s -> ~ all_finished workers prog s ->
       exists s', cstep C_eq_dec workers prog members s s') /\
    (forall s, Acc (fun s2 s1 => cstep C_eq_dec workers prog members s1 s2) s) /\
    (forall s, creach C_eq_dec workers prog members s ->
       (forall s', ~ cstep C_eq_dec workers prog members s s') -> all_finished workers prog s).

  (** Members enter the same number [K c] of operations on [c]. *)
  Record good (prog : Z -> list (instr C)) (K : C -> nat) (level : C -> nat -> nat) (B : nat) : Prop := {
    g_post : forall w c, In w workers -> In (Post c) (prog w) -> In w (members c);
    g_wait : forall w c n, In w workers -> In (Wait c n) (prog w) ->
      In w (members c) /\ (1 <= n <= K c)%nat /\ (level c n < B)%nat /\
      forall m, In m (members c) -> In m workers;
    g_count : forall w c, In w workers -> In w (members c) -> cpost c (prog w) = K c;
    g_level : levelled C_eq_dec workers prog level
  }.

  Lemma good_deadlock_free prog K level B : NoDup workers -> good prog K level B -> deadlock_free prog.
  Proof.
    intros HN G.
    assert (HM : matched_calls C_eq_dec workers prog members).
    { intros w c n Hw Hi m Hm. destruct (g_wait _ _ _ _ G w c n Hw Hi) as (_ & Hn & _ & HIn).
      split; auto. rewrite (g_count _ _ _ _ G m c); auto. lia. }
    pose proof (g_level _ _ _ _ G) as HL. split; [|split].
    - intros s Hr Hn. eapply collective_progress; eauto.
    - intros s. now apply collective_terminates.
    - intros s Hr Hmax. eapply collective_completes; eauto.
  Qed.

  Lemma cpost_renumber c base p : cpost c (map (renumber base) p) = cpost c p.
  Proof.
    unfold count_post. induction p as [|i p IH]; simpl; auto. destruct i as [c'|c' n]; simpl; auto.
    destruct (C_eq_dec c c'); simpl; auto.
  Qed.

  Lemma cpost_In c p j : nth_error p j = Some (Post c) -> (1 <= cpost c (firstn (S j) p))%nat.
  Proof.
    revert j. induction p as [|i p IH]; intros [|j] H; try discriminate.
    - simpl in H. inv H. unfold count_post. simpl. destruct (C_eq_dec c c); [simpl; lia|congruence].
    - simpl in H. change (firstn (S (S j)) (i :: p)) with ([i] ++ firstn (S j) p).
      rewrite count_post_app. specialize (IH j H). lia.
  Qed.

  Definition level_app (K1 : C -> nat) (l1 l2 : C -> nat -> nat) (B1 : nat) (c : C) (n : nat) : nat :=
    if (n <=? K1 c)%nat then l1 c n else (B1 + l2 c (n - K1 c))%nat.

  Lemma good_app p q K1 l1 B1 K2 l2 B2 : good p K1 l1 B1 -> good q K2 l2 B2 ->
    good (fun w => seqp (p w) (q w)) (fun c => (K1 c + K2 c)%nat) (level_app K1 l1 l2 B1) (B1 + B2).
  Proof.
    intros G1 G2.
    assert (HW : forall w c n, In w workers -> In (Wait c n) (map (renumber (fun c => cpost c (p w))) (q w)) ->
      exists k, n = (K1 c + k)%nat /\ In (Wait c k) (q w)).
    { intros w c n Hw Hin. apply in_map_iff in Hin as ([c'|c' k] & E & Hin); simpl in E; [discriminate|].
      inv E. exists k. split; auto. f_equal. apply (g_count _ _ _ _ G1); auto.
      now apply (g_wait _ _ _ _ G2 w c k). }
    assert (HP : forall w c, In (Post c) (map (renumber (fun c => cpost c (p w))) (q w)) -> In (Post c) (q w)).
    { intros w c Hin. apply in_map_iff in Hin as ([c'|c' k] & E & Hin); simpl in E; congruence. }
    split.
    - intros w c Hw Hin. apply in_app_iff in Hin as [Hin|Hin].
      + now apply (g_post _ _ _ _ G1).
      + apply HP in Hin. now apply (g_post _ _ _ _ G2) in Hin.
    - intros w c n Hw Hin. apply in_app_iff in Hin as [Hin|Hin].
      + destruct (g_wait _ _ _ _ G1 w c n Hw Hin) as (H1 & H2 & H3 & H4).
        split; auto. split; [lia|]. split; auto. unfold level_app.
        destruct (Nat.leb_spec n (K1 c)); lia.
      + apply HW in Hin as (k & -> & Hin); auto.
        destruct (g_wait _ _ _ _ G2 w c k Hw Hin) as (H1 & H2 & H3 & H4).
        split; auto. split; [lia|]. split; auto. unfold level_app.
        destruct (Nat.leb_spec (K1 c + k) (K1 c)); [lia|].
        replace (K1 c + k - K1 c)%nat with k by lia. lia.
    - intros w c Hw Hm. unfold seqp. rewrite count_post_app, cpost_renumber.
      rewrite (g_count _ _ _ _ G1), (g_count _ _ _ _ G2); auto.
    - intros w c' n' c i j Hw Hij Hi Hj. unfold seqp in *.
      set (r := map (renumber (fun c => cpost c (p w))) (q w)) in *.
      destruct (le_lt_dec (length (p w)) j) as [Lj|Lj].
      + rewrite nth_error_app2 in Hj by auto.
        assert (Hmem : In w (members c)).
        { apply (g_post _ _ _ _ G2); auto. apply HP. eapply nth_error_In; eauto. }
        replace (firstn (S j) (p w ++ r)) with (p w ++ firstn (S (j - length (p w))) r)
          by (rewrite firstn_app, (firstn_all2 (p w)) by lia;
              now replace (S j - length (p w))%nat with (S (j - length (p w))) by lia).
        rewrite count_post_app, (g_count _ _ _ _ G1 w c Hw Hmem).
        pose proof (cpost_In c r _ Hj) as H1. unfold level_app at 2.
        destruct (Nat.leb_spec (K1 c + cpost c (firstn (S (j - length (p w))) r)) (K1 c)); [lia|].
        replace (K1 c + _ - K1 c)%nat with (cpost c (firstn (S (j - length (p w))) r)) by lia.
        destruct (le_lt_dec (length (p w)) i) as [Li|Li].
        * rewrite nth_error_app2 in Hi by auto.
          assert (Hi' := Hi). unfold r in Hi'. rewrite nth_error_map in Hi'.
          destruct (nth_error (q w) (i - length (p w))) as [[d|d k]|] eqn:Eq; simpl in Hi'; try discriminate.
          inv Hi'. assert (Hin : In (Wait c' k) (q w)) by (eapply nth_error_In; eauto).
          destruct (g_wait _ _ _ _ G2 w c' k Hw Hin) as (Hm' & Hk & _ & _).
          rewrite (g_count _ _ _ _ G1 w c' Hw Hm'). unfold level_app.
          destruct (Nat.leb_spec (K1 c' + k) (K1 c')); [lia|].
          replace (K1 c' + k - K1 c')%nat with k by lia.
          assert (Hj' := Hj). unfold r in Hj'. rewrite nth_error_map in Hj'.
          destruct (nth_error (q w) (j - length (p w))) as [[d|d k']|] eqn:Eq'; simpl in Hj'; try discriminate.
          inv Hj'. assert ((l2 c' k < l2 c (cpost c (firstn (S (j - length (p w))) (q w))))%nat).
          { apply (g_level _ _ _ _ G2 w c' k c (i - length (p w))%nat (j - length (p w))%nat); auto. lia. }
          unfold r. rewrite firstn_map, cpost_renumber. lia.
        * rewrite nth_error_app1 in Hi by auto.
          destruct (g_wait _ _ _ _ G1 w c' n' Hw) as (_ & Hn & Hb & _); [eapply nth_error_In; eauto|].
          unfold level_app. destruct (Nat.leb_spec n' (K1 c')); lia.
      + assert (Li : (i < length (p w))%nat) by lia.
        rewrite nth_error_app1 in Hi, Hj by auto.
        rewrite firstn_app. replace (S j - length (p w))%nat with 0%nat by lia.
        rewrite firstn_O, app_nil_r.
        destruct (g_wait _ _ _ _ G1 w c' n' Hw) as (_ & Hn & Hb & _); [eapply nth_error_In; eauto|].
        assert (Hmem : In w (members c)).
        { apply (g_post _ _ _ _ G1); auto. eapply nth_error_In; eauto. }
        assert (Hle : (cpost c (firstn (S j) (p w)) <= cpost c (p w))%nat) by now apply count_post_firstn_le.
        rewrite (g_count _ _ _ _ G1 w c Hw Hmem) in Hle.
        unfold level_app. destruct (Nat.leb_spec n' (K1 c')); [|lia].
        destruct (Nat.leb_spec (cpost c (firstn (S j) (p w))) (K1 c)); [|lia].
        apply (g_level _ _ _ _ G1 w c' n' c i j); auto.
  Qed.

  Lemma good_nil : good (fun _ => []) (fun _ => 0%nat) (fun _ _ => 0%nat) 0.
  Proof.
    split; try easy.
    intros w c' n' c i j _ _ H. destruct i; discriminate.
  Qed.

  (** Finite sequences of phases. *)
  Definition run_phases (ps : list (Z -> list (instr C))) (w : Z) : list (instr C) :=
    fold_left (fun acc p => seqp acc (p w)) ps [].

  Lemma good_phases ps : (forall p, In p ps -> exists K l B, good p K l B) ->
    exists K l B, good (run_phases ps) K l B.
  Proof.
    assert (Gen : forall acc K l B, good acc K l B ->
      (forall p, In p ps -> exists K l B, good p K l B) ->
      exists K l B, good (fun w => fold_left (fun a p => seqp a (p w)) ps (acc w)) K l B).
    { induction ps as [|p ps IH]; intros acc K l B HA HP; [simpl; eauto|].
      destruct (HP p (or_introl eq_refl)) as (K' & l' & B' & Hp).
      simpl. apply (IH (fun w => seqp (acc w) (p w)) _ _ _ (good_app _ _ _ _ _ _ _ _ HA Hp)).
      intros p' Hp'. apply HP. now right. }
    intros HP. exact (Gen (fun _ => []) _ _ _ good_nil HP).
  Qed.

  (** [good] only looks at the workers' programs. *)
  Lemma good_ext p q K l B : (forall w, In w workers -> p w = q w) -> good p K l B -> good q K l B.
  Proof.
    intros E [H1 H2 H3 H4]. split.
    - intros w c Hw. rewrite <- E by auto. now apply H1.
    - intros w c n Hw. rewrite <- E by auto. now apply H2.
    - intros w c Hw. rewrite <- E by auto. now apply H3.
    - intros w c' n' c i j Hw. rewrite <- E by auto. now apply H4.
  Qed.

  (** Programs of blocking calls. *)
  Lemma good_blocking calls K level B :
    (forall w c, In w workers -> In c (calls w) ->
       In w (members c) /\ forall m, In m (members c) -> In m workers) ->
    (forall w c, In w workers -> In w (members c) -> count_occ C_eq_dec (calls w) c = K c) ->
    (forall w, In w workers -> Sorted.StronglySorted lt
       (map (fun cn => level (fst cn) (snd cn)) (numbered C_eq_dec [] (calls w)))) ->
    (forall w c n, In w workers -> In c (calls w) -> (1 <= n <= K c)%nat -> (level c n < B)%nat) ->
    good (bprog C_eq_dec calls) K level B.
  Proof.
    intros HM HK HS HB. split.
    - intros w c Hw Hin. apply In_nth_error in Hin as [j Hj].
      apply (blocking_nth_post C_eq_dec) in Hj as (k & _ & Hk & _). apply (HM w c Hw).
      eapply nth_error_In; eauto.
    - intros w c n Hw Hin. apply In_nth_error in Hin as [j Hj].
      apply (blocking_nth_wait C_eq_dec) in Hj as (k & _ & Hk & ->).
      assert (Hc : In c (calls w)) by (eapply nth_error_In; eauto).
      destruct (HM w c Hw Hc) as [H1 H2]. split; auto.
      assert (Hn : (1 <= count_occ C_eq_dec [] c + count_occ C_eq_dec (firstn (S k) (calls w)) c <= K c)%nat).
      { simpl (count_occ C_eq_dec [] c). rewrite <- (HK w c Hw H1).
        rewrite <- (firstn_skipn (S k) (calls w)) at 3. rewrite count_occ_app.
        assert (count_occ C_eq_dec (firstn (S k) (calls w)) c > 0)%nat; [|lia].
        apply count_occ_In. apply (nth_error_In _ k).
        rewrite <- (firstn_skipn (S k) (calls w)) in Hk. rewrite nth_error_app1 in Hk; auto.
        rewrite firstn_length. assert ((k < length (calls w))%nat); [|lia].
        apply nth_error_Some. rewrite firstn_skipn in Hk. congruence. }
      split; [exact Hn|]. split; [now apply (HB w)|auto].
    - intros w c Hw Hc. unfold bprog. rewrite count_post_blocking. now apply HK.
    - now apply sorted_levelled.
  Qed.
End Phases.

(** Phases over two disjoint kinds of communicators. *)
Section Sum.
  Context {A B : Type}.
  Variable A_eq_dec : forall a b : A, {a = b} + {a <> b}.
  Variable B_eq_dec : forall a b : B, {a = b} + {a <> b}.
  Variable AB_eq_dec : forall a b : A + B, {a = b} + {a <> b}.

  Definition instr_map {X Y} (f : X -> Y) (i : instr X) : instr Y :=
    match i with Post c => Post (f c) | Wait c n => Wait (f c) n end.

  Lemma cpost_map {X Y} (X_dec : forall a b : X, {a = b} + {a <> b}) (Y_dec : forall a b : Y, {a = b} + {a <> b})
    (f : X -> Y) c p : (forall a b, f a = f b -> a = b) ->
    count_post Y_dec (f c) (map (instr_map f) p) = count_post X_dec c p.
  Proof.
    intros Hf. unfold count_post. induction p as [|i p IH]; simpl; auto.
    destruct i as [c'|c' n]; simpl; auto.
    destruct (Y_dec (f c) (f c')) as [E|E], (X_dec c c') as [E'|E']; simpl; auto; [|congruence].
    apply Hf in E. congruence.
  Qed.

  Lemma cpost_map_other {X Y} (Y_dec : forall a b : Y, {a = b} + {a <> b})
    (f : X -> Y) d p : (forall a, f a <> d) -> count_post Y_dec d (map (instr_map f) p) = 0%nat.
  Proof.
    intros Hf. unfold count_post. induction p as [|i p IH]; simpl; auto.
    destruct i as [c'|c' n]; simpl; auto. destruct (Y_dec d (f c')); simpl; auto.
    exfalso. eapply Hf; eauto.
  Qed.

  Variable workers : list Z.
  Variable mA : A -> list Z.
  Variable mB : B -> list Z.
  Definition msum (c : A + B) : list Z := match c with inl a => mA a | inr b => mB b end.

  Lemma good_inl p K l N : good A_eq_dec workers mA p K l N ->
    good AB_eq_dec workers msum (fun w => map (instr_map inl) (p w))
      (fun c => match c with inl a => K a | inr _ => 0%nat end)
      (fun c n => match c with inl a => l a n | inr _ => 0%nat end) N.
  Proof.
    intros G. split.
    - intros w c Hw Hin. apply in_map_iff in Hin as ([a|a k] & E & Hin); simpl in E; inv E.
      now apply (g_post _ _ _ _ _ _ _ G).
    - intros w c n Hw Hin. apply in_map_iff in Hin as ([a|a k] & E & Hin); simpl in E; inv E.
      now apply (g_wait _ _ _ _ _ _ _ G).
    - intros w [a|b] Hw Hm.
      + rewrite (cpost_map A_eq_dec) by congruence. now apply (g_count _ _ _ _ _ _ _ G).
      + apply cpost_map_other. congruence.
    - intros w c' n' c i j Hw Hij Hi Hj. rewrite nth_error_map in Hi, Hj.
      destruct (nth_error (p w) i) as [[a|a k]|] eqn:Ei; simpl in Hi; inv Hi.
      destruct (nth_error (p w) j) as [[a'|a' k']|] eqn:Ej; simpl in Hj; inv Hj.
      rewrite firstn_map, (cpost_map A_eq_dec) by congruence.
      now apply (g_level _ _ _ _ _ _ _ G w _ _ _ i j).
  Qed.

  Lemma good_inr p K l N : good B_eq_dec workers mB p K l N ->
    good AB_eq_dec workers msum (fun w => map (instr_map inr) (p w))
      (fun c => match c with inr b => K b | inl _ => 0%nat end)
      (fun c n => match c with inr b => l b n | inl _ => 0%nat end) N.
  Proof.
    intros G. split.
    - intros w c Hw Hin. apply in_map_iff in Hin as ([a|a k] & E & Hin); simpl in E; inv E.
      now apply (g_post _ _ _ _ _ _ _ G).
    - intros w c n Hw Hin. apply in_map_iff in Hin as ([a|a k] & E & Hin); simpl in E; inv E.
      now apply (g_wait _ _ _ _ _ _ _ G).
    - intros w [a|b] Hw Hm.
      + apply cpost_map_other. congruence.
      + rewrite (cpost_map B_eq_dec) by congruence. now apply (g_count _ _ _ _ _ _ _ G).
    - intros w c' n' c i j Hw Hij Hi Hj. rewrite nth_error_map in Hi, Hj.
      destruct (nth_error (p w) i) as [[a|a k]|] eqn:Ei; simpl in Hi; inv Hi.
      destruct (nth_error (p w) j) as [[a'|a' k']|] eqn:Ej; simpl in Hj; inv Hj.
      rewrite firstn_map, (cpost_map B_eq_dec) by congruence.
      now apply (g_level _ _ _ _ _ _ _ G w _ _ _ i j).
  Qed.
End Sum.
