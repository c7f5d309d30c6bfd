(** Properties of [print_sequential]. *)

From Verif Require Import Prelude ModelPartition ProofPartition P2P Rounds ModelDebug.

(** ** C64 *)

(** What a worker should print: for the calls on partitions whose first worker it
    is, in the order of the calls, the values of all workers in rank order. *)
Definition transcript {V} (cs : list (print_call V)) (w : Z) : list V :=
  flat_map (fun c => match pr_ranks c with
                     | first :: _ => if Z.eq_dec first w then map (pr_val c) (pr_ranks c) else []
                     | [] => []
                     end) cs.

Definition prefix {V} (a b : list V) : Prop := exists rest, b = a ++ rest.

Definition C64_statement : Prop :=
  forall (V : Type) (workers : list Z) (cs : list (print_call V)) (eager : Z -> Z -> Z -> nat -> bool),
    NoDup workers ->
    (forall c, In c cs -> NoDup (pr_ranks c) /\ incl (pr_ranks c) workers) ->
    let prog := rounds_prog (print_program cs) in
    let runs := run workers prog (fun _ => []) eager in
    (* no execution goes on for ever, and none gets stuck *)
    (exists N, forall n g, runs n g -> (n <= N)%nat) /\
    (forall n g, runs n g -> ~ done workers prog g -> exists g', step workers prog eager g g') /\
    (* at any time a worker has printed the beginning of its transcript, at the end all of it *)
    (forall n g w, runs n g -> In w workers -> prefix (wdata (gw g w)) (transcript cs w)) /\
    (forall n g w, runs n g -> done workers prog g -> In w workers -> wdata (gw g w) = transcript cs w).

Section Proof.
  Context {V : Type}.
  Notation action := (@action (list V) V).
  Variable workers : list Z.

  Lemma prefix_refl (a : list V) : prefix a a.
  Proof. exists []. now rewrite app_nil_r. Qed.
  Lemma prefix_trans (a b c : list V) : prefix a b -> prefix b c -> prefix a c.
  Proof. intros (r & ->) (r' & ->). exists (r ++ r'). now rewrite app_assoc. Qed.
  Lemma prefix_snoc (a : list V) x : prefix a (a ++ [x]).
  Proof. now exists [x]. Qed.

  Definition good (c : print_call V) : Prop := NoDup (pr_ranks c) /\ incl (pr_ranks c) workers.

  Lemma own_ok (c : print_call V) : round_ok workers eq eq (print_own c).
  Proof.
    pose (f := fun w => match rank_in (pr_ranks c) w with
                        | Some 0 => [fun out : list V => out ++ [pr_val c w]] | _ => [] end).
    assert (E : forall w, print_own c w = map (@ALocal (list V) V) (f w)).
    { intros w. unfold print_own, f. destruct (rank_in (pr_ranks c) w) as [[]|]; reflexivity. }
    pose proof (round_ok_local workers eq (@eq V) f ltac:(intros; now subst)) as [H1 H2 H3 H4 H5].
    constructor; intros *; rewrite ?E; eauto.
  Qed.

  Lemma rank_zero ranks w : rank_in ranks w = Some 0 -> nth 0 ranks 0 = w.
  Proof. intros H. apply rank_in_some in H as [_ H]. now apply nth_error_nth. Qed.

  Lemma rank_nth ranks w i : 0 < i -> rank_in ranks w = Some i -> nth (Z.to_nat i) ranks 0 = w.
  Proof. intros _ H. apply rank_in_some in H as [_ H]. now apply nth_error_nth. Qed.

  Lemma rank_of ranks i : NoDup ranks -> 0 <= i < Z.of_nat (length ranks) ->
    rank_in ranks (nth (Z.to_nat i) ranks 0) = Some i.
  Proof. intros HN Hi. apply rank_in_spec; auto. split; [lia|]. apply nth_error_nth'. lia. Qed.

  Lemma other_sends (c : print_call V) i d t w : sends_in d t (print_other c i w) =
    match rank_in (pr_ranks c) w with
    | Some r => if negb (r =? 0) && (r =? i) && ((nth 0 (pr_ranks c) 0 =? d) && (pr_comm c =? t)) then 1%nat else 0%nat
    | None => 0%nat
    end.
  Proof.
    unfold print_other, sends_in. destruct (rank_in (pr_ranks c) w) as [r|]; [|reflexivity].
    destruct (r =? 0); cbn [negb andb]; [reflexivity|]. destruct (r =? i); cbn [andb filter is_send]; [|reflexivity].
    now destruct (_ && _).
  Qed.

  Lemma other_recvs (c : print_call V) i s t w : recvs_in s t (print_other c i w) =
    match rank_in (pr_ranks c) w with
    | Some r => if (r =? 0) && ((nth (Z.to_nat i) (pr_ranks c) 0 =? s) && (pr_comm c =? t)) then 1%nat else 0%nat
    | None => 0%nat
    end.
  Proof.
    unfold print_other, recvs_in. destruct (rank_in (pr_ranks c) w) as [r|]; [|reflexivity].
    destruct (r =? 0); cbn [negb andb filter is_recv].
    - now destruct (_ && _).
    - now destruct (r =? i).
  Qed.

  Lemma other_ok (c : print_call V) i : good c -> 0 < i < Z.of_nat (length (pr_ranks c)) -> round_ok workers eq eq (print_other c i).
  Proof.
    intros [HN HI] Hi. pose proof (rank_of _ 0 HN ltac:(lia)) as R0. pose proof (rank_of _ i HN ltac:(lia)) as Ri.
    constructor.
    - intros w d t _ H. rewrite other_sends in H. destruct (rank_in (pr_ranks c) w) as [r|]; [|lia].
      destruct (_ && _) eqn:E in H; [|lia]. breflect. subst d. apply HI. apply nth_In. lia.
    - intros w s t _ H. rewrite other_recvs in H. destruct (rank_in (pr_ranks c) w) as [r|]; [|lia].
      destruct (_ && _) eqn:E in H; [|lia]. breflect. subst s. apply HI. apply nth_In. lia.
    - intros s d t _ _. rewrite other_sends, other_recvs.
      destruct (pr_comm c =? t).
      2: { destruct (rank_in (pr_ranks c) s), (rank_in (pr_ranks c) d); rewrite ?andb_false_r; lia. }
      assert (A : (match rank_in (pr_ranks c) s with Some r => negb (r =? 0) && (r =? i) | None => false end)
                  = (nth (Z.to_nat i) (pr_ranks c) 0 =? s)).
      { destruct (nth (Z.to_nat i) (pr_ranks c) 0 =? s) eqn:E; breflect.
        - subst s. rewrite Ri. rewrite Z.eqb_refl. destruct (i =? 0) eqn:E; breflect; lia.
        - destruct (rank_in (pr_ranks c) s) as [r|] eqn:Er; auto. destruct (r =? i) eqn:E1; breflect; [|apply andb_false_r].
          subst r. apply rank_nth in Er; [congruence|lia]. }
      assert (B : (match rank_in (pr_ranks c) d with Some r => r =? 0 | None => false end) = (nth 0 (pr_ranks c) 0 =? d)).
      { destruct (nth 0 (pr_ranks c) 0 =? d) eqn:E; breflect.
        - subst d. change (nth 0 (pr_ranks c) 0) with (nth (Z.to_nat 0) (pr_ranks c) 0). now rewrite R0.
        - destruct (rank_in (pr_ranks c) d) as [r|] eqn:Er; auto. destruct (r =? 0) eqn:E1; breflect; auto.
          subst r. apply rank_zero in Er. congruence. }
      rewrite <- A, <- B. destruct (rank_in (pr_ranks c) s) as [r|], (rank_in (pr_ranks c) d) as [r'|];
        rewrite ?andb_true_r, ?andb_false_r; try lia.
      destruct (negb (r =? 0) && (r =? i)), (r' =? 0); cbn; lia.
    - intros w a _ Ha. unfold print_other in Ha. destruct (rank_in (pr_ranks c) w) as [r|]; [|destruct Ha].
      destruct (r =? 0); [|destruct (r =? i); [|destruct Ha]]; cbn [In] in Ha; destruct Ha as [<-|[]]; cbn; intros; now subst.
    - intros w _. unfold print_other. destruct (rank_in (pr_ranks c) w) as [r|]; [|constructor].
      destruct (r =? 0); [|destruct (r =? i)]; repeat constructor.
  Qed.

  Lemma program_ok (cs : list (print_call V)) : (forall c, In c cs -> good c) -> Forall (round_ok workers eq eq) (print_program cs).
  Proof.
    intros H. apply Forall_forall. intros rd Hrd. apply in_flat_map in Hrd as (c & Hc & [<-|Hrd]); [apply own_ok|].
    apply in_map_iff in Hrd as (i & <- & Hi). apply in_map_iff in Hi as (k & <- & Hk). apply in_seq in Hk.
    apply other_ok; [now apply H|lia].
  Qed.

  (** *** The rounds in lock-step *)

  Lemma sync_own (c : print_call V) (S0 : Z -> list V) w : sync1 (print_own c) S0 w =
    S0 w ++ match rank_in (pr_ranks c) w with Some 0 => [pr_val c w] | _ => [] end.
  Proof.
    unfold sync1, print_own. destruct (rank_in (pr_ranks c) w) as [[]|]; cbn; now rewrite ?app_nil_r.
  Qed.

  Lemma sync_other (c : print_call V) i (S0 : Z -> list V) w : good c -> 0 < i < Z.of_nat (length (pr_ranks c)) ->
    sync1 (print_other c i) S0 w =
    S0 w ++ match rank_in (pr_ranks c) w with Some 0 => [pr_val c (nth (Z.to_nat i) (pr_ranks c) 0)] | _ => [] end.
  Proof.
    intros [HN HI] Hi. unfold sync1. unfold print_other at 2 3.
    destruct (rank_in (pr_ranks c) w) as [r|] eqn:Er; [|cbn; now rewrite app_nil_r].
    destruct (r =? 0) eqn:E0; breflect.
    - subst r. cbn [unpack_all acts_run]. unfold print_other. rewrite rank_of by (auto; lia).
      destruct (i =? 0) eqn:E; breflect; [lia|]. rewrite Z.eqb_refl. cbn [pay].
      rewrite (rank_zero _ _ Er), !Z.eqb_refl. reflexivity.
    - assert (match r with 0 => [pr_val c (nth (Z.to_nat i) (pr_ranks c) 0)] | _ => [] end = []) as -> by (destruct r; easy).
      destruct (r =? i); cbn; now rewrite app_nil_r.
  Qed.

  Lemma sync_others (c : print_call V) (S0 : Z -> list V) w k m : good c -> (1 <= k)%nat -> (k + m <= length (pr_ranks c))%nat ->
    sync_rounds (map (print_other c) (map Z.of_nat (seq k m))) S0 w =
    S0 w ++ match rank_in (pr_ranks c) w with Some 0 => map (fun j => pr_val c (nth j (pr_ranks c) 0)) (seq k m) | _ => [] end.
  Proof.
    intros Hc. revert k S0. induction m as [|m IH]; intros k S0 Hk Hm.
    - cbn. destruct (rank_in (pr_ranks c) w) as [[]|]; now rewrite app_nil_r.
    - cbn [seq map].
      transitivity (sync_rounds (map (print_other c) (map Z.of_nat (seq (S k) m))) (sync1 (print_other c (Z.of_nat k)) S0) w);
        [reflexivity|].
      rewrite IH by lia. rewrite sync_other by (auto; lia). rewrite Nat2Z.id, <- app_assoc. f_equal.
      destruct (rank_in (pr_ranks c) w) as [[]|]; reflexivity.
  Qed.

  Lemma seq_nth_all (l : list Z) : map (fun j => nth j l 0) (seq 0 (length l)) = l.
  Proof.
    induction l as [|a l IH]; [reflexivity|]. cbn [length seq map nth]. f_equal. rewrite <- seq_shift, map_map. exact IH.
  Qed.

  Lemma sync_call (c : print_call V) (S0 : Z -> list V) w : good c ->
    sync_rounds (print_sequential c) S0 w = S0 w ++ transcript [c] w.
  Proof.
    intros Hc. unfold print_sequential.
    transitivity (sync_rounds (map (print_other c) (map Z.of_nat (seq 1 (length (pr_ranks c) - 1)))) (sync1 (print_own c) S0) w);
      [reflexivity|].
    unfold transcript. cbn [flat_map]. rewrite app_nil_r.
    destruct (pr_ranks c) as [|first rest] eqn:E.
    { cbn. rewrite sync_own, E. reflexivity. }
    rewrite <- E. rewrite sync_others by (rewrite ?E; cbn [length]; auto; lia).
    rewrite sync_own, <- app_assoc. f_equal.
    assert (R : rank_in (pr_ranks c) w = Some 0 <-> first = w).
    { rewrite rank_in_spec by apply Hc. rewrite E. cbn. split; [intros [_ H]; congruence|intros ->; split; [lia|auto]]. }
    destruct (Z.eq_dec first w) as [Ew|Ew].
    - apply R in Ew as Er. rewrite Er. rewrite E at 1. cbn [length Nat.sub]. rewrite Nat.sub_0_r.
      transitivity (map (pr_val c) (map (fun j => nth j (pr_ranks c) 0) (seq 0 (length (pr_ranks c))))).
      + rewrite map_map, E. cbn [length seq map nth]. subst first. reflexivity.
      + now rewrite seq_nth_all.
    - destruct (rank_in (pr_ranks c) w) as [[]|]; auto. exfalso. apply Ew, R. reflexivity.
  Qed.

  Lemma sync_program (cs : list (print_call V)) (S0 : Z -> list V) w : (forall c, In c cs -> good c) ->
    sync_rounds (print_program cs) S0 w = S0 w ++ transcript cs w.
  Proof.
    revert S0. induction cs as [|c cs IH]; intros S0 H; [cbn; now rewrite app_nil_r|].
    transitivity (sync_rounds (print_program cs) (sync_rounds (print_sequential c) S0) w).
    { unfold print_program, sync_rounds. cbn [flat_map]. now rewrite fold_left_app. }
    rewrite IH by (intros; apply H; now right).
    rewrite sync_call by (apply H; now left). rewrite <- app_assoc. f_equal.
    unfold transcript. cbn [flat_map]. now rewrite app_nil_r.
  Qed.

  (** *** What has been printed is never taken back *)

  (** Actions that only append lines. *)
  Definition appends (a : action) : Prop :=
    match a with
    | ARecv _ _ h => forall m s, prefix s (h m s)
    | ALocal f => forall s, prefix s (f s)
    | _ => True
    end.

  Lemma program_appends (cs : list (print_call V)) rd w : In rd (print_program cs) -> Forall appends (rd w).
  Proof.
    intros H. apply in_flat_map in H as (c & _ & [<-|H]).
    - unfold print_own. destruct (rank_in (pr_ranks c) w) as [[]|]; repeat constructor. cbn. intros. apply prefix_snoc.
    - apply in_map_iff in H as (i & <- & _). unfold print_other.
      destruct (rank_in (pr_ranks c) w) as [r|]; [|constructor].
      destruct (r =? 0); [|destruct (r =? i)]; repeat constructor. cbn. intros. apply prefix_snoc.
  Qed.

  Lemma acts_prefix l s : Forall appends l -> prefix s (acts_run l s).
  Proof.
    intros H. revert s. induction H as [|a l Ha Hl IH]; intros s; [apply prefix_refl|].
    destruct a; cbn [acts_run]; auto. eapply prefix_trans; [apply Ha|apply IH].
  Qed.

  Lemma unpack_prefix (msgs : Z -> Z -> list V) l s : Forall appends l -> prefix s (unpack_all msgs l s).
  Proof.
    intros H. revert s. induction H as [|a l Ha Hl IH]; intros s; [apply prefix_refl|].
    destruct a; cbn [unpack_all]; auto. destruct (msgs src tag); auto. eapply prefix_trans; [apply Ha|apply IH].
  Qed.

  Section Run.
    Variable prog : Z -> list (list action).
    Variable init : Z -> list V.
    Hypothesis Happ : forall w r, Forall appends (code prog w r).

    Lemma sync_prefix w r : prefix (sync prog init r w) (sync prog init (1 + r) w).
    Proof.
      cbn [Nat.add sync]. unfold sync_round. eapply prefix_trans; [apply acts_prefix, (Happ w r)|]. apply unpack_prefix, Happ.
    Qed.

    Lemma sync_prefix_le w r r' : (r <= r')%nat -> prefix (sync prog init r w) (sync prog init r' w).
    Proof. induction 1; [apply prefix_refl|]. eapply prefix_trans; [eassumption|]. apply (sync_prefix w m). Qed.

    Definition req_appends (q : @req (list V) V) : Prop := match q with QRecv _ _ _ h => forall m s, prefix s (h m s) | _ => True end.

    Lemma deliver_prefix w r l s : Forall req_appends l -> prefix s (deliver prog init w r l s).
    Proof.
      intros H. revert s. unfold deliver. induction H as [|q l Hq Hl IH]; intros s; [apply prefix_refl|].
      cbn [fold_left]. eapply prefix_trans; [|apply IH]. destruct q; cbn [eff]; try apply prefix_refl.
      destruct (msgs _ _ _ _ _ _); [apply prefix_refl|apply Hq].
    Qed.

    Lemma masked_appends l0 (l : list (@req (list V) V)) : Forall req_appends l0 ->
      Forall2 (fun q0 q => q = q0 \/ q = QNull) l0 l -> Forall req_appends l.
    Proof.
      intros H H2. induction H2 as [|q0 q l0 l [->| ->] _ IH]; constructor; inversion H; subst; auto. exact I.
    Qed.

    Lemma reqs_appends w r l : Forall appends l -> Forall req_appends (reqs_of prog w r l).
    Proof.
      induction 1 as [|a l Ha Hl IH]; [constructor|]. unfold reqs_of. cbn [flat_map]. apply Forall_app. split; [|exact IH].
      destruct a; repeat constructor; auto.
    Qed.

    Variable eager : Z -> Z -> Z -> nat -> bool.
    Hypothesis Hmatch : matched workers prog.
    Hypothesis Hproper : proper workers prog eq eq.
    Hypothesis Hcomm : commuting workers prog eq.
    Hypothesis Hnodup : NoDup workers.

    Lemma run_prefix n g w : run workers prog init eager n g -> In w workers ->
      prefix (wdata (gw g w)) (sync prog init (length (prog w)) w).
    Proof.
      intros Hr Hw.
      pose proof (run_Inv workers prog init eager eq eq _ _ Hmatch Hproper Hcomm Hnodup n g Hr) as I.
      pose proof (inv_round _ _ _ _ _ _ _ I w Hw) as Hrd.
      set (x := gw g w) in *.
      assert (P : prefix (wdata x) (sync prog init (1 + wround x) w)).
      { destruct (inv_phase _ _ _ _ _ _ _ I w Hw) as [(_ & _ & D)|(_ & F & _ & D)]; fold x in D.
        - rewrite D. cbn [Nat.add sync]. unfold sync_round.
          eapply prefix_trans; [|apply unpack_prefix, Happ].
          rewrite <- (firstn_skipn (wpos x) (code prog w (wround x))) at 2. rewrite acts_run_app. apply acts_prefix.
          pose proof (Happ w (wround x)) as A. rewrite <- (firstn_skipn (wpos x)) in A. apply Forall_app in A. apply A.
        - fold x in F. rewrite <- D. apply deliver_prefix. eapply masked_appends; [|exact F]. apply reqs_appends, Happ. }
      destruct (Nat.eq_dec (wround x) (length (prog w))) as [E|E].
      - replace (sync prog init (1 + wround x) w) with (sync prog init (wround x) w) in P; [now rewrite <- E|].
        cbn [Nat.add sync]. unfold sync_round. rewrite (code_beyond prog w (wround x)) by lia. reflexivity.
      - eapply prefix_trans; [exact P|]. apply sync_prefix_le. lia.
    Qed.
  End Run.
End Proof.

Lemma C64_proof : C64_statement.
Proof.
  intros V workers cs eager HN HC prog runs.
  pose proof (program_ok workers cs HC) as HO.
  destruct (rounds_async workers eq eq _ _ (print_program cs) (fun _ => []) HN HO) as [A1 A2 A3 _].
  destruct (rounds_good workers eq eq _ HO) as (G1 & G2 & G3).
  split; [exact (A1 eager)|]. split; [exact (A2 eager)|]. split.
  - intros n g w Hr Hw.
    pose proof (run_prefix workers prog (fun _ => [])) as RP.
    specialize (RP (fun w r => ltac:(
      unfold prog; rewrite rounds_code;
      destruct (nth_in_or_default r (print_program cs) (fun _ => [])) as [Hin|Hd];
      [exact (program_appends cs _ w Hin)|rewrite Hd; constructor]))).
    specialize (RP eager G1 G2 G3 HN n g w Hr Hw).
    replace (length (prog w)) with (length (print_program cs)) in RP by (unfold prog, rounds_prog; now rewrite map_length).
    unfold prog in RP. rewrite sync_rounds_spec, firstn_all, (sync_program workers) in RP; auto.
  - intros n g w Hr Hd Hw. rewrite (A3 eager n g w Hr Hd Hw). now rewrite (sync_program workers).
Qed.

Theorem C64_print_sequential : C64_statement.
Proof. exact C64_proof. Qed.

(** Two calls on overlapping partitions of four workers, the second one's first
    worker not being the first worker of the first. *)
Example C64_example :
  let cs := [mkprint 0 [0; 1; 3] (fun w => 10 + w); mkprint 7 [2; 0] (fun w => 20 + w); mkprint 0 [0; 1; 3] (fun w => 30 + w)] in
  (forall c, In c cs -> NoDup (pr_ranks c) /\ incl (pr_ranks c) [0; 1; 2; 3]) /\
  transcript cs 0 = [10; 11; 13; 30; 31; 33] /\ transcript cs 2 = [22; 20] /\ transcript cs 3 = [] /\
  length (rounds_prog (print_program cs) 0) = 8%nat.
Proof.
  split; [|repeat split; reflexivity]. intros c [<-|[<-|[<-|[]]]]; split; cbn;
    try (repeat constructor; cbn; intuition lia); intros w; cbn; intuition lia.
Qed.

Print Assumptions C64_print_sequential.
