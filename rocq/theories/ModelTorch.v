(** Model of nn/pooling.py and nn/conv_feature.py with torch layers of which
    nothing is fixed: what they compute may depend on the worker, the shape of the
    input and the position in it.  Machine words as elements of tensors. *)

From Coq Require Import Eqdep_dec.
From Verif Require Import Prelude SpecIndex ModelSlicing ModelDecomposition ModelPartition Ring Tensor ModelCollectives
  ModelUtilities P2P Rounds ModelRepartition ModelHaloMixin ModelHaloExchange ModelFeatureLayer.

(** The window without padding: conv_feature.py:138-146, pooling.py:104-112. *)
Definition plain (w : window) : window := mkwindow (w_kernel w) (w_stride w) (repeat 0 (length (w_kernel w))) (w_dilation w).

Section Layers.
  Context {R : CRing}.
  Notation tensor := (tensor R).
  Variables (P : part) (w : window).

  (** pooling.py:271-304 (and conv_feature.py:390-393) on worker [v], from the
      output of the halo layer; [torch] is [self.pool_layer]. *)
  Definition feature_output_by (torch : Z -> tensor -> result tensor) (shape : Z -> list Z) (x exchanged : Z -> tensor) (v : Z)
    : result tensor :=
    let* u := feature_setup P w shape v in
    match u with
    | None => Ok (x v)
    | Some u => torch v (slice_tensor (exchanged v) (u_needed u))
    end.

  (** conv_feature.py:357-393; [torch v w' weight bias] is torch's convolution with
      window [w'], the layer's own on a single worker (lines 125-136), the one
      without padding otherwise (138-146). *)
  Definition conv_forward_by (use_bias : bool) (dt : Z -> Z) (rg : Z -> bool)
      (torch : Z -> window -> tensor -> option tensor -> tensor -> result tensor)
      (weight bias : Z -> tensor) (shape : Z -> list Z) (x exchanged : Z -> tensor) (v : Z) : result tensor :=
    let given b := if use_bias then Some b else None in
    if negb (is_active (p_ranks P) v) then Ok (x v)
    else if Nat.eqb (length (p_ranks P)) 1 then torch v w (weight v) (given (bias v)) (x v)
    else
      let* wt := conv_parameter P dt rg weight v in
      let* b := (if use_bias then conv_parameter P dt rg bias v else Ok (bias v)) in
      feature_output_by (fun u => torch u (plain w) wt (given b)) shape x exchanged v.
End Layers.

(** ** Words of [n] bits

    The elements of a tensor of any element type (utilities/dtype.py:31-53) are
    words.  Nothing but the word 0, which is the number zero in all of these types,
    is used of this ring. *)
Definition word (n : nat) : Type := { z : Z | (0 <=? z) && (z <? 2 ^ Z.of_nat n) = true }.
(** The bits of an element, utilities/dtype.py:31-53. *)
Definition bits {n} (a : word n) : Z := proj1_sig a.

Lemma word_bound n z : (0 <=? z mod 2 ^ Z.of_nat n) && (z mod 2 ^ Z.of_nat n <? 2 ^ Z.of_nat n) = true.
Proof.
  pose proof (Z.mod_pos_bound z (2 ^ Z.of_nat n) (Z.pow_pos_nonneg 2 (Z.of_nat n) eq_refl (Nat2Z.is_nonneg n))) as [A B].
  apply Z.leb_le in A. apply Z.ltb_lt in B. now rewrite A, B.
Qed.
(** An element from its bits, utilities/dtype.py:31-53. *)
Definition to_word (n : nat) (z : Z) : word n := exist _ (z mod 2 ^ Z.of_nat n) (word_bound n z).

Lemma word_eq n (a b : word n) : bits a = bits b -> a = b.
Proof. destruct a as [a Ha], b as [b Hb]. cbn. intros E. subst b. f_equal. apply UIP_dec. apply bool_dec. Qed.
Lemma word_mod n (a : word n) : bits a mod 2 ^ Z.of_nat n = bits a.
Proof. destruct a as [a Ha]. cbn. apply andb_true_iff in Ha as [A B]. apply Z.leb_le in A. apply Z.ltb_lt in B. apply Z.mod_small. lia. Qed.

(** Elements of a type of utilities/dtype.py:31-53, with the operations modulo 2^n. *)
Definition word_ring (n : nat) : CRing.
Proof.
  refine (mkCRing (word n) (to_word n 0) (to_word n 1) (fun a b => to_word n (bits a + bits b)) (fun a b => to_word n (bits a * bits b))
    (fun a b => to_word n (bits a - bits b)) (fun a => to_word n (- bits a)) _).
  pose proof (Z.pow_pos_nonneg 2 (Z.of_nat n) eq_refl (Nat2Z.is_nonneg n)) as Hp.
  constructor; intros; apply word_eq; unfold to_word; cbn [bits proj1_sig].
  - rewrite Zplus_mod_idemp_l. cbn [Z.add]. apply word_mod.
  - f_equal. lia.
  - rewrite Zplus_mod_idemp_r, Zplus_mod_idemp_l. f_equal. lia.
  - rewrite Zmult_mod_idemp_l, Z.mul_1_l. apply word_mod.
  - f_equal. lia.
  - rewrite Zmult_mod_idemp_r, Zmult_mod_idemp_l. f_equal. lia.
  - rewrite Zmult_mod_idemp_l, <- Zplus_mod. f_equal. lia.
  - rewrite Zplus_mod_idemp_r. f_equal.
  - rewrite Zplus_mod_idemp_r. f_equal. lia.
Defined.
