(** General lemmas on integers and lists used by the whole development. *)

From Coq Require Export ZArith List Lia Bool.
From Coq Require Export Permutation.
Export ListNotations.
Open Scope Z_scope.

Ltac Zify.zify_post_hook ::= Z.div_mod_to_equations.

(** Turn boolean comparisons in the context into propositions. *)
Ltac breflect :=
  repeat match goal with
  | H : (_ =? _) = true |- _ => apply Z.eqb_eq in H
  | H : (_ =? _) = false |- _ => apply Z.eqb_neq in H
  | H : (_ <? _) = true |- _ => apply Z.ltb_lt in H
  | H : (_ <? _) = false |- _ => apply Z.ltb_ge in H
  | H : (_ <=? _) = true |- _ => apply Z.leb_le in H
  | H : (_ <=? _) = false |- _ => apply Z.leb_gt in H
  | H : (_ && _)%bool = true |- _ => apply andb_true_iff in H; destruct H
  | H : (_ || _)%bool = false |- _ => apply orb_false_iff in H; destruct H
  end.

Ltac inv H := inversion H; clear H; subst.

(** * Elementwise operations, as numpy applies them to arrays of one length *)

Fixpoint map2 {A B C} (f : A -> B -> C) (l1 : list A) (l2 : list B) : list C :=
  match l1, l2 with
  | a :: l1', b :: l2' => f a b :: map2 f l1' l2'
  | _, _ => []
  end.

Fixpoint map3 {A B C D} (f : A -> B -> C -> D)
    (l1 : list A) (l2 : list B) (l3 : list C) : list D :=
  match l1, l2, l3 with
  | a :: l1', b :: l2', c :: l3' => f a b c :: map3 f l1' l2' l3'
  | _, _, _ => []
  end.

(** [range(n)] of Python. *)
Definition zrange (n : Z) : list Z := map Z.of_nat (seq 0 (Z.to_nat n)).

Definition zsum (l : list Z) : Z := fold_right Z.add 0 l.
Definition zprod (l : list Z) : Z := fold_right Z.mul 1 l.

(** Replace position [i] of a list. *)
Fixpoint upd {A} (i : nat) (a : A) (l : list A) : list A :=
  match l, i with
  | [], _ => []
  | _ :: t, O => a :: t
  | h :: t, S j => h :: upd j a t
  end.

(** Position of the first element satisfying a test, as [np.where(..)[0][0]]. *)
Fixpoint find_idx {A} (p : A -> bool) (l : list A) : option nat :=
  match l with
  | [] => None
  | a :: t => if p a then Some O else option_map S (find_idx p t)
  end.

(** Equality test on lists of integers. *)
Fixpoint zlist_eqb (a b : list Z) : bool :=
  match a, b with
  | [], [] => true
  | x :: a', y :: b' => (x =? y) && zlist_eqb a' b'
  | _, _ => false
  end.

Lemma zlist_eqb_eq a b : zlist_eqb a b = true <-> a = b.
Proof.
  revert b; induction a as [|x a IH]; destruct b as [|y b]; simpl;
    split; intro H; try congruence.
  - breflect. f_equal; auto. apply IH; auto.
  - inv H. rewrite Z.eqb_refl. simpl. now apply IH.
Qed.

Lemma zlist_eqb_refl a : zlist_eqb a a = true.
Proof. now apply zlist_eqb_eq. Qed.

(** * zrange *)

Lemma in_zrange n i : In i (zrange n) <-> 0 <= i < n.
Proof.
  unfold zrange. rewrite in_map_iff. split.
  - intros (k & <- & Hk). apply in_seq in Hk. lia.
  - intros H. exists (Z.to_nat i). split; [lia|]. apply in_seq. lia.
Qed.

Lemma zrange_length n : length (zrange n) = Z.to_nat n.
Proof. unfold zrange. now rewrite map_length, seq_length. Qed.

Lemma zrange_nodup n : NoDup (zrange n).
Proof.
  unfold zrange. apply FinFun.Injective_map_NoDup.
  - intros a b. lia.
  - apply seq_NoDup.
Qed.

Lemma zrange_nth n k d : (k < Z.to_nat n)%nat -> nth k (zrange n) d = Z.of_nat k.
Proof.
  intros H. unfold zrange.
  rewrite nth_indep with (d' := Z.of_nat 0) by (rewrite map_length, seq_length; lia).
  rewrite map_nth. rewrite seq_nth; lia.
Qed.

Lemma zrange_nth_error n k : (k < Z.to_nat n)%nat -> nth_error (zrange n) k = Some (Z.of_nat k).
Proof.
  intros H. rewrite nth_error_nth' with (d := 0).
  - now rewrite zrange_nth.
  - now rewrite zrange_length.
Qed.

Lemma zrange_nonpos n : n <= 0 -> zrange n = [].
Proof. intros. unfold zrange. replace (Z.to_nat n) with O by lia. reflexivity. Qed.

Lemma zrange_succ n : 0 <= n -> zrange (n + 1) = zrange n ++ [n].
Proof.
  intros. unfold zrange. replace (Z.to_nat (n+1)) with (S (Z.to_nat n)) by lia.
  rewrite seq_S, map_app. simpl. repeat f_equal. lia.
Qed.

Lemma zrange_app n m : 0 <= n -> 0 <= m ->
  zrange (n + m) = zrange n ++ map (fun i => n + i) (zrange m).
Proof.
  intros Hn Hm. unfold zrange.
  replace (Z.to_nat (n + m)) with (Z.to_nat n + Z.to_nat m)%nat by lia.
  rewrite seq_app, map_app. f_equal. rewrite map_map.
  generalize (Z.to_nat m) as k. intros k. simpl.
  replace (seq (Z.to_nat n) k) with (map (Nat.add (Z.to_nat n)) (seq 0 k)).
  - rewrite map_map. apply map_ext. intros; lia.
  - clear. revert k. generalize (Z.to_nat n) as a. intros a k.
    replace a with (a + 0)%nat at 2 by lia. generalize 0%nat as b.
    induction k as [|k IH]; intros b; simpl; auto. rewrite IH. f_equal. f_equal. lia.
Qed.

(** * map2 / map3 *)

Lemma map2_length {A B C} (f : A -> B -> C) l1 l2 :
  length l1 = length l2 -> length (map2 f l1 l2) = length l1.
Proof.
  revert l2; induction l1; destruct l2; simpl; intros; auto; try discriminate.
Qed.

Lemma map3_length {A B C D} (f : A -> B -> C -> D) l1 l2 l3 :
  length l1 = length l2 -> length l2 = length l3 -> length (map3 f l1 l2 l3) = length l1.
Proof.
  revert l2 l3; induction l1; destruct l2, l3; simpl; intros; auto; try discriminate.
Qed.

Lemma map2_nth {A B C} (f : A -> B -> C) l1 l2 i da db dc :
  (i < length l1)%nat -> length l1 = length l2 ->
  nth i (map2 f l1 l2) dc = f (nth i l1 da) (nth i l2 db).
Proof.
  revert l2 i; induction l1; destruct l2, i; simpl; intros; try lia; auto.
  apply IHl1; lia.
Qed.

Lemma map3_nth {A B C D} (f : A -> B -> C -> D) l1 l2 l3 i da db dc dd :
  (i < length l1)%nat -> length l1 = length l2 -> length l2 = length l3 ->
  nth i (map3 f l1 l2 l3) dd = f (nth i l1 da) (nth i l2 db) (nth i l3 dc).
Proof.
  revert l2 l3 i; induction l1; destruct l2, l3, i; simpl; intros; try lia; auto.
  apply IHl1; lia.
Qed.

Lemma map2_ext {A B C} (f g : A -> B -> C) l1 l2 :
  (forall a b, f a b = g a b) -> map2 f l1 l2 = map2 g l1 l2.
Proof.
  intros H. revert l2; induction l1; destruct l2; simpl; auto. now rewrite H, IHl1.
Qed.

(** * upd *)

Lemma upd_length {A} i (a : A) l : length (upd i a l) = length l.
Proof. revert i; induction l; destruct i; simpl; auto. Qed.

Lemma upd_nth {A} i j (a d : A) l :
  (i < length l)%nat -> nth j (upd i a l) d = if Nat.eqb i j then a else nth j l d.
Proof.
  revert i j; induction l as [|h t IH]; intros i j Hi; simpl in *; [lia|].
  destruct i, j; simpl; auto. apply IH. lia.
Qed.

Lemma upd_nth_neq {A} i j (a d : A) l : i <> j -> nth j (upd i a l) d = nth j l d.
Proof.
  revert i j; induction l as [|h t IH]; intros i j Hi; destruct i, j; simpl; auto; try lia.
Qed.

Lemma upd_nth_eq {A} i (a d : A) l : (i < length l)%nat -> nth i (upd i a l) d = a.
Proof. intros H. rewrite upd_nth by auto. now rewrite Nat.eqb_refl. Qed.

(** * find_idx *)

Lemma find_idx_some {A} (p : A -> bool) l k :
  find_idx p l = Some k ->
  exists a, nth_error l k = Some a /\ p a = true /\
            forall j b, (j < k)%nat -> nth_error l j = Some b -> p b = false.
Proof.
  revert k; induction l as [|a l IH]; intros k H; simpl in H; [discriminate|].
  destruct (p a) eqn:E.
  - inv H. exists a. repeat split; auto. intros; lia.
  - destruct (find_idx p l) as [k'|] eqn:F; simpl in H; inv H.
    destruct (IH k' eq_refl) as (b & Hb & Pb & Hj).
    exists b. simpl. repeat split; auto.
    intros j c Hjk Hc. destruct j; simpl in Hc.
    + congruence.
    + apply (Hj j); auto. lia.
Qed.

Lemma find_idx_none {A} (p : A -> bool) l :
  find_idx p l = None <-> forall a, In a l -> p a = false.
Proof.
  induction l as [|a l IH]; simpl; split; intros; try easy.
  - destruct (p a) eqn:E; [discriminate|].
    destruct H0 as [<-|H0]; auto.
    destruct (find_idx p l); [discriminate|]. apply IH; auto.
  - rewrite (H a) by auto. destruct IH as [_ IH].
    rewrite IH; auto.
Qed.

Lemma find_idx_complete {A} (p : A -> bool) l a :
  In a l -> p a = true -> exists k, find_idx p l = Some k.
Proof.
  intros Ha Pa. destruct (find_idx p l) eqn:E; eauto.
  rewrite find_idx_none in E. rewrite E in Pa; auto. discriminate.
Qed.

(** If exactly position [k] satisfies the test, [find_idx] returns it. *)
Lemma find_idx_unique {A} (p : A -> bool) l k a :
  nth_error l k = Some a -> p a = true ->
  (forall j b, nth_error l j = Some b -> p b = true -> j = k) ->
  find_idx p l = Some k.
Proof.
  intros Hk Pa U.
  destruct (find_idx_complete p l a) as (k' & Hk').
  - now apply nth_error_In with k.
  - auto.
  - rewrite Hk'. f_equal.
    apply find_idx_some in Hk' as (b & Hb & Pb & _). eauto.
Qed.

(** * Sums and products *)

Lemma zsum_app l1 l2 : zsum (l1 ++ l2) = zsum l1 + zsum l2.
Proof. induction l1; simpl; auto. rewrite IHl1. lia. Qed.

Lemma zprod_app l1 l2 : zprod (l1 ++ l2) = zprod l1 * zprod l2.
Proof.
  induction l1 as [|a l IH]; simpl.
  - destruct (zprod l2); reflexivity.
  - rewrite IH. lia.
Qed.

Lemma zprod_nonneg l : Forall (fun n => 0 <= n) l -> 0 <= zprod l.
Proof. induction 1; simpl; lia. Qed.

Lemma zprod_pos l : Forall (fun n => 0 < n) l -> 0 < zprod l.
Proof. induction 1; simpl; lia. Qed.

Lemma zprod_zero l : zprod l = 0 <-> In 0 l.
Proof.
  induction l as [|a l IH]; simpl; [lia|]. rewrite <- IH. nia.
Qed.

(** * NoDup helpers *)

Lemma NoDup_app {A} (l1 l2 : list A) :
  NoDup l1 -> NoDup l2 -> (forall a, In a l1 -> In a l2 -> False) -> NoDup (l1 ++ l2).
Proof.
  induction l1 as [|a l1 IH]; simpl; intros H1 H2 H; auto.
  inv H1. constructor.
  - rewrite in_app_iff. intros [?|?]; eauto.
  - apply IH; eauto.
Qed.

Lemma NoDup_flat_map {A B} (f : A -> list B) l :
  NoDup l ->
  (forall a, In a l -> NoDup (f a)) ->
  (forall a a' b, In a l -> In a' l -> In b (f a) -> In b (f a') -> a = a') ->
  NoDup (flat_map f l).
Proof.
  induction l as [|a l IH]; simpl; intros HN H1 H2.
  - constructor.
  - inv HN. apply NoDup_app; auto.
    + apply IH; auto. intros; eapply H2; eauto.
    + intros b Hb Hb'. apply in_flat_map in Hb' as (a' & Ha' & Hb').
      assert (a = a') by (eapply H2; eauto). subst. contradiction.
Qed.

Lemma NoDup_nth_error_inj {A} (l : list A) i j a :
  NoDup l -> nth_error l i = Some a -> nth_error l j = Some a -> i = j.
Proof.
  intros HN Hi Hj.
  assert ((i < length l)%nat) by (apply nth_error_Some; congruence).
  eapply NoDup_nth_error; eauto. congruence.
Qed.

Lemma Forall2_length {A B} (P : A -> B -> Prop) l1 l2 :
  Forall2 P l1 l2 -> length l1 = length l2.
Proof. induction 1; simpl; auto. Qed.

Lemma Forall2_nth {A B} (P : A -> B -> Prop) l1 l2 da db :
  Forall2 P l1 l2 <->
  length l1 = length l2 /\ forall i, (i < length l1)%nat -> P (nth i l1 da) (nth i l2 db).
Proof.
  split.
  - induction 1; simpl.
    + split; auto. intros; lia.
    + destruct IHForall2 as [HL HI]. split; [lia|].
      intros [|i] Hi; auto. apply HI. lia.
  - revert l2; induction l1 as [|a l1 IH]; destruct l2 as [|b l2]; simpl; intros [HL HI];
      try discriminate; constructor.
    + apply (HI 0%nat). lia.
    + apply IH. split; [lia|]. intros i Hi. apply (HI (S i)). lia.
Qed.

Lemma list_eq_nth {A} (l1 l2 : list A) d :
  length l1 = length l2 -> (forall i, (i < length l1)%nat -> nth i l1 d = nth i l2 d) -> l1 = l2.
Proof.
  intros HL HI. apply nth_ext with d d; auto.
Qed.

Lemma nth_map_seq {A} (f : nat -> A) n k d : (k < n)%nat -> nth k (map f (seq 0 n)) d = f k.
Proof.
  intros H. rewrite (nth_indep _ d (f 0%nat)) by (now rewrite map_length, seq_length).
  now rewrite map_nth, seq_nth.
Qed.
