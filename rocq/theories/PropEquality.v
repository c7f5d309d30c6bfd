(** Comparison of partitions. *)

From Verif Require Import Prelude ModelLifetime PropLifetime ModelEquality.

(** ** C72 *)

(** MPI: the group of a communicator is the one it was created from, or that
    [Get_group] gives; ranks are not negative. *)
Definition mpi_contents (members in_comm : nat -> list Z) (rank_in : nat -> Z) (h : heap) : Prop :=
  (forall i c g, o_comm (obj h i) = Some c -> o_group (obj h i) = Some g -> members g = in_comm c) /\ forall c, 0 <= rank_in c.

(** Where P_send and P_recv of the last call are. *)
Definition send_at (h : heap) (s r e : bool) : nat := (length (objs h) - if s && r && e then 1 else 2)%nat.
Definition recv_at (h : heap) : nat := (length (objs h) - 1)%nat.

(** After any sequence of calls, whether or not some of them raised: *)
Definition C72_statement : Prop :=
  forall os members in_comm rank_in, let h := do_ops start os in
  mpi_contents members in_comm rank_in h ->
  let same := equal members rank_in in
  (* equal are: a partition and itself, and those made of MPI.COMM_WORLD; if active *)
  (forall i j, same h i j = true <->
     o_active (obj h i) = true /\ o_active (obj h j) = true /\ (i = j \/ (o_comm (obj h i) = Some 0%nat /\ o_comm (obj h j) = Some 0%nat))) /\
  (* so it is symmetric and transitive, and reflexive as long as the partition is active *)
  (forall i j, same h i j = same h j i) /\
  (forall i j k, same h i j = true -> same h j k = true -> same h i k = true) /\
  (forall i, same h i i = o_active (obj h i)) /\
  (* later calls do not change it, unless one of the two is released *)
  (forall i j o, o <> ODeactivate i -> o <> ODeactivate j -> let h' := fst (do_op h o) in
     mpi_contents members in_comm rank_in h' -> (i < length (objs h))%nat -> (j < length (objs h))%nat -> same h' i j = same h i j) /\
  (* what a call returns equals no other partition, unless it wraps MPI.COMM_WORLD *)
  (forall o, o <> OWorld -> let h' := fst (do_op h o) in
     mpi_contents members in_comm rank_in h' -> forall i j, (length (objs h) <= i)%nat -> j <> i -> same h' i j = false /\ same h' j i = false) /\
  (* on the workers of a broadcast or reduction P_send and P_recv are equal if and only if both groups exist and agree *)
  (forall i j s r e h', o_active (obj h i) = true \/ o_active (obj h j) = true -> do_op h (OCross i j (Groups s r e)) = (h', None) ->
     mpi_contents members in_comm rank_in h' -> same h' (send_at h' s r e) (recv_at h') = s && r && e).

(** Two workers, whose programs are [os] and [os'], call [i], [j] and [i'], [j'] the
    partitions of a layer: whether the layer does nothing is decided alike on both; it
    does nothing exactly if the two are equal and, on more than one worker, neither or
    both are transposed. *)
Definition C72_identity_statement : Prop :=
  forall os os' members members' in_comm in_comm' rank_in rank_in' i j i' j' size ts td,
  let h := do_ops start os in let h' := do_ops start os' in
  mpi_contents members in_comm rank_in h -> mpi_contents members' in_comm' rank_in' h' ->
  (i = j <-> i' = j') ->
  (o_comm (obj h i) = Some 0%nat <-> o_comm (obj h' i') = Some 0%nat) -> (o_comm (obj h j) = Some 0%nat <-> o_comm (obj h' j') = Some 0%nat) ->
  o_active (obj h i) = true \/ o_active (obj h j) = true -> o_active (obj h' i') = true \/ o_active (obj h' j') = true ->
  identity_layer members rank_in h i j size ts td = identity_layer members' rank_in' h' i' j' size ts td /\
  (identity_layer members rank_in h i j size ts td = true <->
     o_active (obj h i) = true /\ o_active (obj h j) = true /\
     (i = j \/ (o_comm (obj h i) = Some 0%nat /\ o_comm (obj h j) = Some 0%nat)) /\ (size = 1 \/ ts = td)).

(** ** Proofs *)

Lemma rank_live members in_comm rank_in h i c : mpi_contents members in_comm rank_in h -> o_comm (obj h i) = Some c -> rank_of rank_in (obj h i) =? proc_null = false.
Proof. intros [_ H] E. unfold rank_of, proc_null. rewrite E. specialize (H c). lia. Qed.

Lemma inactive_comm h i : Inv h -> o_active (obj h i) = false -> o_comm (obj h i) = None.
Proof.
  intros I A. unfold obj in *. destruct (nth_error (objs h) i) as [o|] eqn:E.
  - rewrite (nth_error_nth _ _ _ E) in *. exact (i_inactive h I i o E A).
  - apply nth_error_None in E. now rewrite nth_overflow.
Qed.

Lemma equal_spec members in_comm rank_in h i j : Inv h -> mpi_contents members in_comm rank_in h ->
  equal members rank_in h i j = true <->
  o_active (obj h i) = true /\ o_active (obj h j) = true /\ o_comm (obj h i) = o_comm (obj h j).
Proof.
  intros I M. unfold equal, null_comm, null_group. rewrite !live_comm_active by exact I.
  destruct (o_active (obj h i)) eqn:Ai; [|cbn; split; [discriminate|intros (X & _); discriminate X]].
  destruct (o_active (obj h j)) eqn:Aj; [|cbn; split; [discriminate|intros (_ & X & _); discriminate X]].
  destruct (i_active h I i _ (obj_nth h i Ai) Ai) as (c & g & C & G & LC & LG).
  destruct (i_active h I j _ (obj_nth h j Aj) Aj) as (c' & g' & C' & G' & LC' & LG').
  rewrite (rank_live _ _ _ _ _ _ M C), (rank_live _ _ _ _ _ _ M C'). rewrite G, G', !live_group_alive by assumption. cbn [negb orb].
  unfold identical_comm, identical_group, null_comm, null_group. rewrite C, C', !live_comm_alive, !live_group_alive by assumption. cbn [negb orb].
  destruct (Nat.eqb_spec c c') as [E|N].
  - subst c'. destruct M as [M _]. rewrite (M i c g C G), (M j c g' C' G').
    destruct (list_eq_dec Z.eq_dec _ _) as [_|N]; [|now destruct N]. unfold rank_of. rewrite C, C', Z.eqb_refl. cbn. tauto.
  - cbn. split; [discriminate|]. intros (_ & _ & E). congruence.
Qed.

Lemma equal_objects members in_comm rank_in h i j : Inv h -> mpi_contents members in_comm rank_in h ->
  equal members rank_in h i j = true <->
  o_active (obj h i) = true /\ o_active (obj h j) = true /\ (i = j \/ (o_comm (obj h i) = Some 0%nat /\ o_comm (obj h j) = Some 0%nat)).
Proof.
  intros I M. rewrite (equal_spec _ _ _ _ _ _ I M). split; intros (A & B & C); (split; [exact A|split; [exact B|]]).
  - destruct (Nat.eq_dec i j) as [->|N]; [now left|right].
    destruct (i_excl h I i j _ _ (obj_nth h i A) (obj_nth h j B) N A) as [X _]. specialize (X B C). now rewrite <- C.
  - destruct C as [->|[-> ->]]; reflexivity.
Qed.

Lemma bool_iff (a b : bool) : (a = true <-> b = true) -> a = b.
Proof. destruct a, b; intuition congruence. Qed.

(** Only [OWorld] makes objects of MPI.COMM_WORLD. *)
Definition Later (n : nat) (h : heap) : Prop :=
  (1 <= comms h)%nat /\ (n <= length (objs h))%nat /\ forall k o, nth_error (objs h) k = Some o -> (n <= k)%nat -> o_comm o <> Some 0%nat.

Lemma later_comm n h : Later n h -> Later n (snd (new_comm h)).
Proof. intros (A & B & C). split; [cbn; lia|]. split; [exact B|exact C]. Qed.
Lemma later_group n h : Later n h -> Later n (snd (new_group h)).
Proof. intros H; exact H. Qed.
Lemma later_obj n h c g r : Later n h -> c <> Some 0%nat -> Later n (new_obj h c g r).
Proof.
  intros (A & B & C) N. split; [exact A|]. split; [cbn; rewrite app_length; lia|]. intros k o E L. apply nth_snoc in E as [[E _]|[_ ->]]; [eauto|exact N].
Qed.
Lemma upd_length {A} (l : list A) i x : length (upd i x l) = length l.
Proof. revert i. induction l as [|a l IH]; intros [|i]; cbn; auto. Qed.
Lemma later_deactivate n h i : Later n h -> Later n (fst (deactivate h i)).
Proof.
  intros (A & B & C). unfold deactivate. destruct (o_active (obj h i)); [|split; auto]. split; [exact A|]. cbn [fst objs]. rewrite upd_length.
  split; [exact B|]. intros k o E L. apply nth_upd_case in E as [(-> & -> & _)|(_ & E)]; [discriminate|eauto].
Qed.
Lemma later_made n h : Later n h -> Some (comms h) <> Some 0%nat.
Proof. intros (A & _) E. inversion E. lia. Qed.

Ltac later := repeat first [assumption | apply later_obj; [|first [discriminate | eapply later_made; eassumption
    | eapply later_made; eapply later_comm; eassumption]] | apply later_deactivate
  | (match goal with |- Later _ (mkheap (objs ?h) (S (comms ?h)) (groups ?h) _ _) => change (Later _ (snd (new_comm h))) end; apply later_comm)
  | (match goal with |- Later _ (mkheap (objs ?h) (comms ?h) (S (groups ?h)) _ _) => change (Later _ (snd (new_group h))) end; apply later_group)].

Lemma later_inclusive n h i m : Later n h -> Later n (fst (inclusive h i m)).
Proof.
  intros L. unfold inclusive. destruct (negb (live_group h _)); [exact L|]. pose proof (later_group n h L) as L1.
  destruct (new_group h) as [g h1]. cbn [snd] in L1. destruct (negb _); [exact L1|]. destruct m; [|now apply later_obj].
  pose proof (later_comm n h1 L1) as L2. pose proof (later_made n h1 L1) as N. unfold new_comm in *. cbn [snd] in L2. now apply later_obj.
Qed.
Lemma later_union n h i j m : Later n h -> Later n (fst (union h i j m)).
Proof.
  intros L. unfold union. destruct (negb (_ && _ && _)); [exact L|]. destruct (negb _); [exact L|]. pose proof (later_group n h L) as L1.
  destruct (new_group h) as [g h1]. cbn [snd] in L1. destruct m; [|now apply later_obj].
  pose proof (later_comm n h1 L1) as L2. pose proof (later_made n h1 L1) as N. unfold new_comm in *. cbn [snd] in L2. now apply later_obj.
Qed.
Lemma later_cartesian n h i f : Later n h -> Later n (fst (cartesian h i f)).
Proof.
  intros L. unfold cartesian. destruct (o_active _); [|now apply later_obj]. destruct (negb _); [exact L|].
  pose proof (later_made n h L) as N. pose proof (later_comm n h L) as L1. unfold new_comm in *. cbn [snd] in L1.
  pose proof (later_group n _ L1) as L2. destruct (new_group _) as [g h2]. cbn [snd] in L2. destruct (negb f); [exact L2|now apply later_obj].
Qed.
Lemma later_subtopology n h i : Later n h -> Later n (fst (subtopology h i)).
Proof.
  intros L. unfold subtopology. destruct (o_active _); [|now apply later_obj]. destruct (negb _); [exact L|].
  pose proof (later_made n h L) as N. pose proof (later_comm n h L) as L1. unfold new_comm in *. cbn [snd] in L1.
  pose proof (later_group n _ L1) as L2. destruct (new_group _) as [g h2]. cbn [snd] in L2. now apply later_obj.
Qed.
Lemma later_allreduction n h i : Later n h -> Later n (fst (allreduction h i)).
Proof.
  intros L. unfold allreduction. destruct (negb _); [now apply later_obj|].
  pose proof (later_inclusive n h i true L) as L1. destruct (inclusive h i true) as [h1 [f|]]; [exact L1|]. cbn [fst] in L1.
  pose proof (later_cartesian n h1 (length (objs h)) true L1) as L2. destruct (cartesian h1 _ true) as [h2 [f|]]; [exact L2|]. now apply later_deactivate.
Qed.
Lemma later_cross n h i j k : Later n h -> Later n (fst (cross h i j k)).
Proof.
  intros L. unfold cross. destruct (negb _); [apply later_obj; [now apply later_obj|discriminate]|].
  pose proof (later_union n h i j true L) as L1. destruct (union h i j true) as [h1 [f|]]; [exact L1|]. cbn [fst] in L1.
  destruct k as [|s r e]; [exact L1|]. pose proof L1 as (P & _).
  assert (forall c, (comms h1 <= c)%nat -> Some c <> Some 0%nat) as N by (intros c Hc E; inversion E; lia).
  destruct s, r; try exact L1; cbn [andb new_group new_comm]; try destruct e; apply later_deactivate;
    repeat (apply later_obj; [|first [discriminate|apply N; cbn; lia]]); split; cbn; try lia; apply L1.
Qed.
Lemma later_step n h o : Later n h -> o <> OWorld -> Later n (fst (do_op h o)).
Proof.
  intros L N. destruct o as [| |i m|i j m|i f|i|i|i j k|i]; cbn [do_op].
  - now destruct N.
  - pose proof (later_made n h L) as E. pose proof (later_comm n h L) as L1. unfold new_comm in *. cbn [snd] in L1. cbn [fst].
    unfold from_comm. pose proof (later_group n _ L1) as L2. destruct (new_group _) as [g h2]. cbn [snd] in L2. now apply later_obj.
  - now apply later_inclusive.
  - now apply later_union.
  - now apply later_cartesian.
  - now apply later_subtopology.
  - now apply later_allreduction.
  - now apply later_cross.
  - now apply later_deactivate.
Qed.

Lemma obj_app_le h h' l i : objs h' = objs h ++ l -> (i < length (objs h))%nat -> obj h' i = obj h i.
Proof. intros E L. unfold obj. rewrite E. now apply app_nth1. Qed.

Lemma deactivate_keeps h u k : k <> u -> obj (fst (deactivate h u)) k = obj h k.
Proof.
  intros N. unfold deactivate. destruct (o_active (obj h u)); [|reflexivity]. cbn [fst]. unfold obj at 1. cbn [objs].
  destruct (nth_error (upd u (mkobj None None (o_root (obj h u)) false) (objs h)) k) as [o|] eqn:E.
  - rewrite (nth_error_nth _ _ _ E). apply nth_upd_case in E as [(-> & _)|(_ & E)]; [now destruct N|]. symmetry. now apply obj_at.
  - rewrite nth_overflow; [|now apply nth_error_None]. apply nth_error_None in E. rewrite upd_length in E. unfold obj. now rewrite nth_overflow.
Qed.

(** The calls change no object made before, except for the one released. *)
Lemma step_keeps h o i : Inv h -> o <> ODeactivate i -> (i < length (objs h))%nat -> obj (fst (do_op h o)) i = obj h i.
Proof.
  intros I N L.
  assert (K : (forall k, o <> ODeactivate k) -> obj (fst (do_op h o)) i = obj h i).
  { intros ND. destruct (step_objs h o I ND) as [l E]. now apply (obj_app_le h _ l). }
  destruct o as [| |k m|k j m|k f|k|k|k j c|k]; try (apply K; discriminate).
  apply deactivate_keeps. intros E. apply N. now rewrite E.
Qed.

Lemma deactivate_length h u : length (objs (fst (deactivate h u))) = length (objs h).
Proof. unfold deactivate. destruct (o_active (obj h u)); [|reflexivity]. cbn [fst objs]. apply upd_length. Qed.
Lemma obj_from h l a k : objs h = l ++ a -> obj h (length l + k) = nth k a (mkobj None None None false).
Proof. intros E. unfold obj. rewrite E, app_nth2 by lia. f_equal. lia. Qed.

(** P_send and P_recv after the union was released. *)
Lemma cross_objects h i j s r e h' : Inv h -> o_active (obj h i) || o_active (obj h j) = true -> cross h i j (Groups s r e) = (h', None) ->
  exists a b, obj h' (send_at h' s r e) = a /\ obj h' (recv_at h') = b /\
    o_active a = s /\ o_active b = (if s && r && e then true else r) /\ (o_comm a = o_comm b <-> s && r && e = true \/ (s = false /\ r = false)).
Proof.
  intros I A E. unfold cross in E. rewrite A in E. cbn [negb] in E.
  destruct (union_step h i j true I) as [(U & u & root & (I1 & F1 & O1 & K1) & Au & R & Ru)|(U & _)].
  2:{ destruct (union h i j true) as [h1 [f|]]; [discriminate E|]. now destruct U. }
  destruct (union h i j true) as [h1 f1]. cbn [fst snd] in U, O1, K1, F1, I1. subst f1.
  assert (K : forall body news, objs body = objs h1 ++ news -> (0 < length news)%nat -> deactivate body (length (objs h)) = (h', None) ->
    length (objs h') = (length (objs h1) + length news)%nat /\
    forall k, obj h' (length (objs h1) + k) = nth k news (mkobj None None None false)).
  { intros body news Ob Ln Ed. assert (H : h' = fst (deactivate body (length (objs h)))) by now rewrite Ed. subst h'. split.
    - rewrite deactivate_length, Ob, app_length. reflexivity.
    - intros k. rewrite deactivate_keeps; [now apply obj_from|]. rewrite O1, app_length. cbn. lia. }
  assert (K2 : forall body news, deactivate body (length (objs h)) = (h', None) -> objs body = objs h1 ++ news -> (0 < length news)%nat ->
    length (objs h') = (length (objs h1) + length news)%nat /\
    forall k, obj h' (length (objs h1) + k) = nth k news (mkobj None None None false)) by eauto.
  unfold send_at, recv_at. destruct s, r; cbn [andb new_group new_comm] in E; [destruct e|..]; try discriminate E.
  - destruct (K2 _ _ E eq_refl ltac:(cbn; lia)) as [L O]. cbn [length] in L. cbn [andb]. rewrite L.
    replace (length (objs h1) + 1 - 1)%nat with (length (objs h1) + 0)%nat by lia. rewrite O. do 2 eexists. repeat split; auto.
  - destruct (K2 _ _ E (eq_sym (app_assoc _ _ _)) ltac:(cbn; lia)) as [L O]. cbn [length app] in L. cbn [andb]. rewrite L.
    replace (length (objs h1) + 2 - 1)%nat with (length (objs h1) + 1)%nat by lia. replace (length (objs h1) + 2 - 2)%nat with (length (objs h1) + 0)%nat by lia.
    rewrite !O. do 2 eexists. cbn. repeat split; auto; [intros X; inversion X; lia|intros [X|[X _]]; discriminate X].
  - destruct (K2 _ _ E (eq_sym (app_assoc _ _ _)) ltac:(cbn; lia)) as [L O]. cbn [length app] in L. cbn [andb]. rewrite L.
    replace (length (objs h1) + 2 - 1)%nat with (length (objs h1) + 1)%nat by lia. replace (length (objs h1) + 2 - 2)%nat with (length (objs h1) + 0)%nat by lia.
    rewrite !O. do 2 eexists. cbn. repeat split; auto; [intros X; inversion X; lia|intros [X|[X _]]; discriminate X].
  - destruct (K2 _ _ E (eq_sym (app_assoc _ _ _)) ltac:(cbn; lia)) as [L O]. cbn [length app] in L. cbn [andb]. rewrite L.
    replace (length (objs h1) + 2 - 1)%nat with (length (objs h1) + 1)%nat by lia. replace (length (objs h1) + 2 - 2)%nat with (length (objs h1) + 0)%nat by lia.
    rewrite !O. do 2 eexists. cbn. repeat split; auto; [intros X; inversion X; lia|intros [X|[_ X]]; discriminate X].
Qed.

Lemma C72_proof : C72_statement.
Proof.
  intros os members in_comm rank_in h M same.
  assert (I : Inv h) by (apply ops_inv, Inv_start). pose proof (fun i j => equal_objects _ _ _ h i j I M) as EQ. fold same in EQ.
  split; [exact EQ|]. split; [|split; [|split; [|split; [|split]]]].
  - intros i j. apply bool_iff. rewrite !EQ. intuition congruence.
  - intros i j k H1 H2. apply (equal_spec _ _ _ _ _ _ I M) in H1, H2. apply (equal_spec _ _ _ _ _ _ I M). intuition congruence.
  - intros i. apply bool_iff. rewrite EQ. tauto.
  - intros i j o Ni Nj h' M' Li Lj. assert (I' : Inv h') by now apply step_inv.
    apply bool_iff. unfold same. rewrite (equal_spec _ _ _ _ _ _ I M), (equal_spec _ _ _ _ _ _ I' M'). unfold h'.
    now rewrite !(step_keeps h o) by auto.
  - intros o N h' M' i j Li Nij. assert (I' : Inv h') by now apply step_inv.
    assert (LT : Later (length (objs h)) h).
    { split; [apply I|]. split; [lia|]. intros k p E Lk. exfalso. assert (k < length (objs h))%nat by (apply nth_error_Some; congruence). lia. }
    apply (later_step _ _ o) in LT; [|exact N]. fold h' in LT.
    assert (Z : o_active (obj h' i) = true -> o_comm (obj h' i) <> Some 0%nat) by (intros A; apply LT with (k := i); [now apply obj_nth|exact Li]).
    pose proof (fun i j => equal_objects _ _ _ h' i j I' M') as EQ'. fold same in EQ'.
    split; apply not_true_iff_false; rewrite EQ'; intros (A & B & [->|[C D]]); auto; apply Z; auto.
  - intros i j s r e h' A E M'. assert (I' : Inv h') by (replace h' with (fst (do_op h (OCross i j (Groups s r e)))) by (now rewrite E); now apply step_inv).
    assert (AA : o_active (obj h i) || o_active (obj h j) = true) by (destruct A as [-> | ->]; [reflexivity|apply orb_true_r]).
    destruct (cross_objects h i j s r e h' I AA E) as (a & b & Ea & Eb & Aa & Ab & C).
    apply bool_iff. unfold same. rewrite (equal_spec _ _ _ _ _ _ I' M'), Ea, Eb, Aa, Ab, C. destruct s, r, e; cbn; intuition congruence.
Qed.

Lemma C72_identity_proof : C72_identity_statement.
Proof.
  intros os os' members members' in_comm in_comm' rank_in rank_in' i j i' j' size ts td h h' M M' S W W2 A A'.
  assert (I : Inv h) by (apply ops_inv, Inv_start). assert (I' : Inv h') by (apply ops_inv, Inv_start).
  unfold identity_layer. split; [|rewrite andb_true_iff, orb_true_iff, Z.eqb_eq, Bool.eqb_true_iff, (equal_objects _ _ _ _ _ _ I M); tauto].
  f_equal. apply bool_iff. rewrite (equal_objects _ _ _ _ _ _ I M), (equal_objects _ _ _ _ _ _ I' M').
  assert (Q : forall hh k, Inv hh -> o_comm (obj hh k) = Some 0%nat -> o_active (obj hh k) = true).
  { intros hh k Ih E. destruct (o_active (obj hh k)) eqn:X; [reflexivity|]. apply (inactive_comm hh k Ih) in X. congruence. }
  split; intros (B1 & B2 & [B|[B3 B4]]).
  - apply S in B. destruct (Nat.eq_dec i' j'); [|tauto]. subst. tauto.
  - apply W in B3. apply W2 in B4. repeat split; auto.
  - apply S in B. subst. tauto.
  - apply W in B3. apply W2 in B4. repeat split; auto.
Qed.

Theorem C72_equality : C72_statement.
Proof. exact C72_proof. Qed.
Theorem C72_identity : C72_identity_statement.
Proof. exact C72_identity_proof. Qed.

(** Two partitions of the same workers and shape, the second one created anew; two
    wrappers of MPI.COMM_WORLD; a broadcast to itself; a released partition. *)
Definition ex72 : list op :=
  [OWorld; OInclusive 0 true; OCartesian 1 true; OInclusive 0 true; OCartesian 3 true; OWorld; OCross 2 2 (Groups true true true); ODeactivate 2].
Definition ex72_members (g : nat) : list Z := if (g =? 0)%nat || (g =? 5)%nat then [0; 1; 2; 3] else [0; 1].
Definition ex72_comm (c : nat) : list Z := match c with 0%nat => [0; 1; 2; 3] | _ => [0; 1] end.
Example C72_example :
  let h := do_ops start ex72 in let h1 := do_ops start (removelast ex72) in
  mpi_contents ex72_members ex72_comm (fun _ => 1) h /\ mpi_contents ex72_members ex72_comm (fun _ => 1) h1 /\ runs start ex72 /\
  equal ex72_members (fun _ => 1) h1 2 4 = false /\ equal ex72_members (fun _ => 1) h1 2 2 = true /\ equal ex72_members (fun _ => 1) h1 0 5 = true /\
  equal ex72_members (fun _ => 1) h1 (send_at h1 true true true) (recv_at h1) = true /\ equal ex72_members (fun _ => 1) h 2 2 = false.
Proof.
  cbv zeta. split; [|split].
  - split; [|intros; lia]. intros i c g. do 8 (destruct i as [|i]; [vm_compute; intros [= <-] [= <-]; reflexivity || (intros; discriminate)|]).
    unfold obj. rewrite nth_overflow by (vm_compute; lia). discriminate.
  - split; [|intros; lia]. intros i c g. do 8 (destruct i as [|i]; [vm_compute; intros [= <-] [= <-]; reflexivity || (intros; discriminate)|]).
    unfold obj. rewrite nth_overflow by (vm_compute; lia). discriminate.
  - vm_compute. repeat split.
Qed.

(** Another worker, which is not in the second partition and first makes another
    one; both decide that a layer from partition 2 (there 3) to itself does nothing,
    and one between the two partitions does something. *)
Definition ex72' : list op := [OWorld; OInclusive 0 false; OInclusive 0 true; OCartesian 2 true; OInclusive 0 false; OCartesian 4 true].
Example C72_identity_example :
  let h := do_ops start (removelast ex72) in let h' := do_ops start ex72' in
  let ident := identity_layer ex72_members (fun _ => 1) h in
  let ident' := identity_layer (fun g => if (g =? 0)%nat then [0; 1; 2; 3] else [0; 1]) (fun _ => 0) h' in
  mpi_contents (fun g => if (g =? 0)%nat then [0; 1; 2; 3] else [0; 1]) ex72_comm (fun _ => 0) h' /\
  ident 2%nat 2%nat 2 false false = true /\ ident' 3%nat 3%nat 2 false false = true /\
  ident 2%nat 4%nat 2 false false = false /\ ident' 3%nat 5%nat 2 false false = false /\ ident 2%nat 2%nat 2 true false = false.
Proof.
  cbv zeta. split.
  - split; [|intros; lia]. intros i c g. do 8 (destruct i as [|i]; [vm_compute; intros [= <-] [= <-]; reflexivity || (intros; discriminate)|]).
    unfold obj. rewrite nth_overflow by (vm_compute; lia). discriminate.
  - vm_compute. repeat split.
Qed.

Print Assumptions C72_equality.
Print Assumptions C72_identity.
