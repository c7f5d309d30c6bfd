(** Commutative rings and finite sums over lists. *)

From Coq Require Export Ring.
From Coq Require Import Sorting.Permutation.
From Verif Require Import Prelude.

(** Element types of tensors: any commutative ring.  Rounding of floating-point
    sums is not modelled. *)
Record CRing := mkCRing {
  car :> Type;
  rzero : car;
  rone : car;
  radd : car -> car -> car;
  rmul : car -> car -> car;
  rsub : car -> car -> car;
  ropp : car -> car;
  rth : ring_theory rzero rone radd rmul rsub ropp (@eq car)
}.

Arguments rzero {_}.
Arguments rone {_}.
Arguments radd {_}.
Arguments rmul {_}.
Arguments rsub {_}.
Arguments ropp {_}.

Declare Scope cring_scope.
Delimit Scope cring_scope with R.
Infix "+" := radd : cring_scope.
Infix "*" := rmul : cring_scope.
Infix "-" := rsub : cring_scope.
Notation "0" := rzero : cring_scope.
Notation "1" := rone : cring_scope.

(** The integers, used in examples. *)
Definition Zring : CRing := mkCRing Z 0%Z 1%Z Z.add Z.mul Z.sub Z.opp Zth.

Section Sums.
  Context {R : CRing}.
  Add Ring R_ring : (rth R).
  Local Open Scope cring_scope.

  Lemma mul_zero_l (a : R) : 0 * a = 0.
  Proof. ring. Qed.

  Lemma mul_zero_r (a : R) : a * 0 = 0.
  Proof. ring. Qed.

  Definition sumf {I : Type} (l : list I) (f : I -> R) : R :=
    fold_right (fun i acc => f i + acc) 0 l.

  Lemma sumf_nil {I} (f : I -> R) : sumf [] f = 0.
  Proof. reflexivity. Qed.

  Lemma sumf_cons {I} i (l : list I) f : sumf (i :: l) f = f i + sumf l f.
  Proof. reflexivity. Qed.

  Lemma sumf_app {I} (l1 l2 : list I) f : sumf (l1 ++ l2) f = sumf l1 f + sumf l2 f.
  Proof.
    induction l1 as [|i l1 IH]; cbn [app]; rewrite ?sumf_nil, ?sumf_cons, ?IH; ring.
  Qed.

  Lemma sumf_ext {I} (l : list I) f g : (forall i, In i l -> f i = g i) -> sumf l f = sumf l g.
  Proof.
    induction l as [|i l IH]; intros H; auto. rewrite !sumf_cons, H, IH; auto.
    - intros; apply H; now right.
    - now left.
  Qed.

  Lemma sumf_zero {I} (l : list I) f : (forall i, In i l -> f i = 0) -> sumf l f = 0.
  Proof.
    intros H. induction l as [|i l IH]; auto. rewrite sumf_cons, H, IH; try (now left); try ring.
    intros; apply H; now right.
  Qed.

  Lemma sumf_add {I} (l : list I) f g : sumf l (fun i => f i + g i) = sumf l f + sumf l g.
  Proof. induction l as [|i l IH]; rewrite ?sumf_nil, ?sumf_cons, ?IH; ring. Qed.

  Lemma sumf_sub {I} (l : list I) f g : sumf l (fun i => f i - g i) = sumf l f - sumf l g.
  Proof. induction l as [|i l IH]; rewrite ?sumf_nil, ?sumf_cons, ?IH; ring. Qed.

  Lemma sumf_mul_l {I} (l : list I) f c : sumf l (fun i => c * f i) = c * sumf l f.
  Proof. induction l as [|i l IH]; rewrite ?sumf_nil, ?sumf_cons, ?IH; ring. Qed.

  Lemma sumf_mul_r {I} (l : list I) f c : sumf l (fun i => f i * c) = sumf l f * c.
  Proof. induction l as [|i l IH]; rewrite ?sumf_nil, ?sumf_cons, ?IH; ring. Qed.

  Lemma sumf_map {I J} (h : I -> J) (l : list I) f : sumf (map h l) f = sumf l (fun i => f (h i)).
  Proof. induction l as [|i l IH]; cbn [map]; rewrite ?sumf_cons, ?IH; auto. Qed.

  Lemma sumf_flat_map {I J} (h : I -> list J) (l : list I) f :
    sumf (flat_map h l) f = sumf l (fun i => sumf (h i) f).
  Proof. induction l as [|i l IH]; cbn [flat_map]; auto. now rewrite sumf_app, sumf_cons, IH. Qed.

  Lemma sumf_exchange {I J} (l : list I) (m : list J) f :
    sumf l (fun i => sumf m (fun j => f i j)) = sumf m (fun j => sumf l (fun i => f i j)).
  Proof.
    induction l as [|i l IH].
    - rewrite sumf_nil. symmetry. now apply sumf_zero.
    - rewrite sumf_cons, IH, <- sumf_add. apply sumf_ext. intros; now rewrite sumf_cons.
  Qed.

  Lemma sumf_perm {I} (l l' : list I) f : Permutation l l' -> sumf l f = sumf l' f.
  Proof.
    induction 1; rewrite ?sumf_cons; try congruence. ring.
  Qed.

  Lemma sumf_filter {I} (p : I -> bool) (l : list I) f :
    sumf (filter p l) f = sumf l (fun i => if p i then f i else 0).
  Proof.
    induction l as [|i l IH]; auto. cbn [filter]. rewrite sumf_cons.
    destruct (p i); rewrite ?sumf_cons, IH; ring.
  Qed.

  Lemma sumf_single {I} (l : list I) f i : NoDup l -> In i l ->
    (forall j, In j l -> j <> i -> f j = 0) -> sumf l f = f i.
  Proof.
    intros HN Hin H. induction HN as [|j l Hj HN IH]; [easy|]. rewrite sumf_cons.
    destruct Hin as [->|Hin].
    - rewrite sumf_zero; [ring|]. intros k Hk. apply H; [now right|]. intros ->. contradiction.
    - rewrite IH; auto.
      + rewrite (H j); [ring|now left|]. intros ->. contradiction.
      + intros k Hk. apply H. now right.
  Qed.

  (** Grouping a sum by the value of a map. *)
  Lemma sumf_fibres {I J} (J_dec : forall a b : J, {a = b} + {a <> b}) (l : list I) (m : list J)
      (h : I -> J) f :
    NoDup m -> (forall i, In i l -> In (h i) m) ->
    sumf m (fun j => sumf l (fun i => if J_dec (h i) j then f i else 0)) = sumf l f.
  Proof.
    intros HN H. rewrite sumf_exchange. apply sumf_ext. intros i Hi.
    rewrite (sumf_single m _ (h i)); auto.
    - now destruct (J_dec (h i) (h i)).
    - intros j _ Hj. destruct (J_dec (h i) j); congruence.
  Qed.

  (** Reindexing along an injective map. *)
  Lemma sumf_reindex {I J} (l : list I) (m : list J) (h : I -> J) f :
    NoDup l -> NoDup m ->
    (forall i, In i l -> In (h i) m) ->
    (forall i i', In i l -> In i' l -> h i = h i' -> i = i') ->
    (forall j, In j m -> exists i, In i l /\ h i = j) ->
    sumf m f = sumf l (fun i => f (h i)).
  Proof.
    intros HN HM H1 H2 H3. rewrite <- (sumf_map h l f). apply sumf_perm, NoDup_Permutation; auto.
    - clear H1 H3 HM m. induction HN as [|i l Hi HN IH]; constructor.
      + intros C. apply in_map_iff in C as (k & Ek & Hk). apply Hi.
        rewrite <- (H2 k i); auto; [now right|now left].
      + apply IH. intros a b Ha Hb. apply H2; now right.
    - intros j. split.
      + intros Hj. destruct (H3 j Hj) as (i & Hi & <-). now apply in_map.
      + intros Hj. apply in_map_iff in Hj as (i & <- & Hi). auto.
  Qed.
End Sums.

Arguments mul_zero_l : clear implicits.
Arguments mul_zero_r : clear implicits.
