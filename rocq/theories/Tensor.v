(** Tensors, their equality and inner products. *)

From Verif Require Import Prelude SpecIndex Ring.

(** All valid indices of a shape, in row-major order. *)
Fixpoint indices (shape : list Z) : list (list Z) :=
  match shape with
  | [] => [[]]
  | n :: sh => flat_map (fun i => map (cons i) (indices sh)) (zrange n)
  end.

Lemma in_indices : forall sh i, In i (indices sh) <-> valid_index sh i.
Proof.
  induction sh as [|n sh IH]; intros i; cbn [indices].
  - split; [intros [<-|[]]; constructor | intros H; inversion H; now left].
  - rewrite in_flat_map. split.
    + intros (k & Hk & Hi). apply in_map_iff in Hi as (j & <- & Hj).
      apply in_zrange in Hk. constructor; [lia|now apply IH].
    + intros H. inversion H as [|? k ? j Hk Hj]; subst. exists k. split.
      * now apply in_zrange.
      * apply in_map, IH, Hj.
Qed.

Lemma indices_nodup : forall sh, NoDup (indices sh).
Proof.
  induction sh as [|n sh IH]; cbn [indices].
  - constructor; [easy|constructor].
  - apply NoDup_flat_map.
    + apply zrange_nodup.
    + intros k _. apply FinFun.Injective_map_NoDup; auto. intros a b E. now injection E.
    + intros k k' x _ _ Hx Hx'. apply in_map_iff in Hx as (j & <- & _).
      apply in_map_iff in Hx' as (j' & E & _). congruence.
Qed.

(** A tensor: a shape and a value for every index.  Values outside the shape are
    irrelevant: [teq] ignores them. *)
Record tensor (R : CRing) := mkt { tshape : list Z; tat : list Z -> R }.
Arguments mkt {_}.
Arguments tshape {_}.
Arguments tat {_}.

Definition teq {R : CRing} (a b : tensor R) : Prop :=
  tshape a = tshape b /\ forall i, valid_index (tshape a) i -> tat a i = tat b i.

Section Tensors.
  Context {R : CRing}.
  Add Ring R_ring : (rth R).
  Local Open Scope cring_scope.

  Lemma teq_refl (a : tensor R) : teq a a.
  Proof. now split. Qed.

  Lemma teq_sym (a b : tensor R) : teq a b -> teq b a.
  Proof. intros [E H]. split; auto. intros i Hi. rewrite H; auto. now rewrite E. Qed.

  Lemma teq_trans (a b c : tensor R) : teq a b -> teq b c -> teq a c.
  Proof.
    intros [E H] [E' H']. split; [congruence|]. intros i Hi. rewrite H, H'; auto. now rewrite <- E.
  Qed.

  Definition tzeros (sh : list Z) : tensor R := mkt sh (fun _ => 0).
  Definition tadd (a b : tensor R) : tensor R := mkt (tshape a) (fun i => tat a i + tat b i).

  (** Inner product of two tensors of the same shape. *)
  Definition inner (a b : tensor R) : R :=
    sumf (indices (tshape a)) (fun i => tat a i * tat b i).

  Lemma inner_teq_l (a a' b : tensor R) : teq a a' -> inner a b = inner a' b.
  Proof.
    intros [E H]. unfold inner. rewrite <- E. apply sumf_ext. intros i Hi.
    rewrite H; auto. now apply in_indices.
  Qed.

  Lemma inner_teq_r (a b b' : tensor R) :
    tshape a = tshape b -> teq b b' -> inner a b = inner a b'.
  Proof.
    intros S [E H]. unfold inner. apply sumf_ext. intros i Hi.
    rewrite H; auto. rewrite <- S. now apply in_indices.
  Qed.

  Lemma inner_comm (a b : tensor R) : tshape a = tshape b -> inner a b = inner b a.
  Proof. intros E. unfold inner. rewrite E. apply sumf_ext. intros; ring. Qed.
End Tensors.
