(** Max pooling: the choice of the window, and the scatter of the gradient. *)

From Verif Require Import Prelude SpecIndex SpecLayout SpecPartition SpecHalo Ring Tensor ModelSlicing ModelPartition ProofSlicing ProofDecomposition
  ProofPartition ModelUtilities PropUtilities ModelRepartition ProofTransfer ModelHaloMixin ProofHaloMixin PropHaloMixin
  Blocks ModelHaloExchange SpecFeature ModelFeatureLayer ProofFeatureLayer ModelGradients ProofGradients ModelFeatureGrad SpecFeatureGrad
  ProofFeatureGrad ModelMaxPoolGrad SpecMaxPoolGrad.
Local Open Scope Z_scope.

Section Scatter.
  Context {R : CRing}.
  Add Ring R_scatter : (rth R).

  (** The exchange of the sums. [V] is what the layer reads, [X] the input. *)
  Lemma scatter_exchange (pos : Z -> Z -> list Z -> list Z) (eqp : list Z -> list Z -> bool)
      (b c : Z) (xs ys : list Z) (V X dY : list Z -> R) :
    (forall b' c' o, 0 <= b' < b -> 0 <= c' < c -> valid_index ys o ->
       V (b' :: c' :: pos b' c' o) = sumf (indices xs) (fun q => if eqp (pos b' c' o) q then X (b' :: c' :: q) else rzero)) ->
    sumf (indices (b :: c :: ys)) (fun i =>
      rmul (match i with b' :: c' :: o => V (b' :: c' :: pos b' c' o) | _ => rzero end) (dY i)) =
    sumf (indices (b :: c :: xs)) (fun i =>
      rmul (X i)
           (match i with
            | b' :: c' :: q => sumf (indices ys) (fun o => if eqp (pos b' c' o) q then dY (b' :: c' :: o) else rzero)
            | _ => rzero
            end)).
  Proof.
    intros HV. rewrite (sum_cons b (c :: ys)), (sum_cons b (c :: xs)). apply sumf_ext. intros b' Hb. apply in_zrange in Hb.
    rewrite !sum_cons. apply sumf_ext. intros c' Hc. apply in_zrange in Hc.
    transitivity (sumf (indices ys) (fun o => sumf (indices xs) (fun q =>
      if eqp (pos b' c' o) q then rmul (X (b' :: c' :: q)) (dY (b' :: c' :: o)) else rzero))).
    - apply sumf_ext. intros o Ho. apply in_indices in Ho. rewrite HV by auto. rewrite <- sumf_mul_r. apply sumf_ext.
      intros q _. apply pick_mul.
    - rewrite sumf_exchange. apply sumf_ext. intros q _. rewrite <- sumf_mul_l. apply sumf_ext. intros o _.
      destruct (eqp _ q); [reflexivity|ring].
  Qed.

  (** A worker: [e] any tensor of the extents of the layer's input. *)
  Lemma scatter_adjoint (sel : Z -> Z -> list Z -> list Z) w b c xs (e dy : tensor R) :
    window_ok (nf w) w -> length xs = nf w -> tshape e = b :: c :: xs -> tshape dy = b :: c :: plain_out w xs ->
    (forall b' c' o, valid_index (w_kernel w) (sel b' c' o)) ->
    inner e (max_scatter (fun b c o => window_point w o (sel b c o)) (tshape e) dy) =
    sumf (indices (tshape dy)) (fun i =>
      rmul (match i with b' :: c' :: o => tat e (b' :: c' :: window_point w o (sel b' c' o)) | _ => rzero end) (tat dy i)).
  Proof.
    intros Hw Lx Se Sd Hs. unfold inner, max_scatter. cbn [tat]. rewrite Se, Sd. cbn [skipn]. symmetry.
    apply (scatter_exchange (fun b c o => window_point w o (sel b c o)) zlist_eqb b c xs (plain_out w xs) (tat e) (tat e) (tat dy)).
    intros b' c' o Hb Hc Ho. apply (pick_point xs (window_point w o (sel b' c' o)) (fun q => tat e (b' :: c' :: q))).
    - intros q. apply zlist_eqb_eq.
    - apply window_inside; auto.
  Qed.

  (** The sequential layer. *)
  Definition picked (choose : (list Z -> R) -> list Z) (value : R) (w : window) (G X : tensor R) (out : list Z) : tensor R :=
    mkt out (fun i => match i with
      | b' :: c' :: o => value_at X rzero (b' :: c' :: seen_point (length (skipn 2 (tshape G))) w o (seen_choice choose value w G b' c' o))
      | _ => rzero
      end).

  Lemma picked_adjoint choose value w (G X dY : tensor R) b c xs ys :
    tshape G = b :: c :: xs -> tshape X = b :: c :: xs -> tshape dY = b :: c :: ys ->
    inner (picked choose value w G X (tshape dY)) dY = inner X (max_gradient choose value w G dY).
  Proof.
    intros EG EX Ed. unfold inner, picked, max_gradient. cbn [tat tshape]. rewrite Ed, EX, EG. cbn [skipn].
    set (pos := fun b' c' o => seen_point (length xs) w o (seen_choice choose value w G b' c' o)).
    assert (He : forall p q, (if list_eq_dec Z.eq_dec p q then true else false) = true <-> p = q).
    { intros p q. destruct (list_eq_dec _ _ _); intuition discriminate. }
    etransitivity; [apply (scatter_exchange pos (fun p q => if list_eq_dec Z.eq_dec p q then true else false) b c xs ys (value_at X rzero) (tat X) (tat dY))|].
    2: { apply sumf_ext. intros i _. f_equal. destruct i as [|b' [|c' q]]; auto. apply sumf_ext. intros o _. fold (pos b' c' o).
      now destruct (list_eq_dec _ _ _). }
    - intros b' c' o Hb Hc Ho. unfold value_at.
      destruct (inside (tshape X) (b' :: c' :: pos b' c' o)) eqn:Ei.
      + apply (pick_point xs _ (fun q => tat X (b' :: c' :: q))); auto.
        apply inside_spec in Ei. rewrite EX in Ei. apply valid_index_cons in Ei as [_ Ei]. now apply valid_index_cons in Ei as [_ Ei].
      + apply (no_point xs (pos b' c' o)); auto. intros Hn.
        assert (inside (tshape X) (b' :: c' :: pos b' c' o) = true); [|congruence].
        apply inside_spec. rewrite EX. apply valid_index_cons. split; auto. apply valid_index_cons. split; auto.
  Qed.
End Scatter.

Section Choice.
  Context {R : CRing}.
  Variable gt : R -> R -> bool.

  Let better (g : list Z -> R) (best t : list Z) := if gt (g t) (g best) then t else best.

  Lemma fold_in g l : forall a, In (fold_left (better g) l a) (a :: l).
  Proof.
    induction l as [|t l IH]; intros a; [now left|]. cbn [fold_left]. destruct (IH (better g a t)) as [E|E].
    - unfold better in E at 1. destruct (gt _ _); [right; left|left]; auto.
    - right. now right.
  Qed.

  Lemma fold_ext g g' l : forall a, (forall t, In t (a :: l) -> g t = g' t) -> fold_left (better g) l a = fold_left (better g') l a.
  Proof.
    induction l as [|t l IH]; intros a E; [reflexivity|]. cbn [fold_left].
    assert (Eb : better g a t = better g' a t) by (unfold better; rewrite (E a), (E t); cbn; auto). rewrite Eb. apply IH.
    intros u [<-|Hu]; [|apply E; cbn; auto]. unfold better. destruct (gt _ _); apply E; cbn; auto.
  Qed.

  Lemma indices_cons w : window_ok (nf w) w -> exists t l, indices (w_kernel w) = t :: l.
  Proof.
    intros Hw. destruct (indices (w_kernel w)) as [|t l] eqn:E; [|eauto]. exfalso.
    assert (Hin : In (map (fun _ => 0) (w_kernel w)) (indices (w_kernel w))); [|rewrite E in Hin; destruct Hin].
    apply in_indices. destruct Hw as (_ & _ & _ & _ & Hk & _). clear -Hk. induction Hk; constructor; auto. lia.
  Qed.

  Lemma first_max_local w : window_ok (nf w) w -> choice_local w (first_max gt w).
  Proof.
    intros Hw. destruct (indices_cons w Hw) as (t0 & l & E). split.
    - intros g. apply in_indices. unfold first_max. rewrite E. cbn [hd]. destruct (fold_in g (t0 :: l) t0) as [H|H]; [left|]; auto.
    - intros g g' Hg. unfold first_max. apply fold_ext. intros t Ht. apply Hg. apply in_indices. rewrite E in *. cbn [hd] in Ht.
      destruct Ht as [<-|Ht]; [left|]; auto.
  Qed.

  Hypothesis Ho : strict_order gt.

  Lemma fold_max g l : forall a t, In t (a :: l) -> gt (g t) (g (fold_left (better g) l a)) = false.
  Proof.
    induction l as [|t l IH]; intros a.
    - intros t' [<-|[]]. apply Ho.
    - cbn [fold_left]. intros u Hu. specialize (IH (better g a t)). set (m := fold_left (better g) l (better g a t)) in *.
      destruct Hu as [<-|[<-|Hu]]; [| |apply IH; right; auto].
      + pose proof (IH _ (or_introl eq_refl)) as A. unfold better at 1 in A. destruct (gt (g t) (g a)) eqn:E; auto.
        destruct (gt (g a) (g m)) eqn:E'; auto. exfalso. pose proof (proj1 (proj2 Ho) _ _ _ E E') as F. congruence.
      + pose proof (IH _ (or_introl eq_refl)) as A. unfold better at 1 in A. destruct (gt (g t) (g a)) eqn:E; auto.
        destruct (gt (g t) (g m)) eqn:E'; auto. destruct (proj2 (proj2 Ho) _ (g a) _ E') as [F|F]; congruence.
  Qed.

  (** The elements before the chosen one are smaller. *)
  Lemma fold_first g l : forall a m p q, m = fold_left (better g) l a ->
    NoDup (a :: l) -> a :: l = p ++ m :: q -> forall t, In t p -> gt (g m) (g t) = true.
  Proof.
    induction l as [|t l IH]; intros a m p q Dm Hn Hp u Hu.
    - destruct p as [|? p]; [destruct Hu|]. cbn in Hp. injection Hp as _ Hp. destruct p; discriminate.
    - cbn [fold_left] in Dm. unfold better in Dm at 2. destruct (gt (g t) (g a)) eqn:E.
      + (* t replaces a *)
        destruct p as [|a0 p]; [destruct Hu|]. cbn in Hp. injection Hp as <- Hp.
        assert (Hn' : NoDup (t :: l)) by now inversion Hn.
        destruct Hu as [<-|Hu]; [|exact (IH t m p q Dm Hn' Hp u Hu)].
        pose proof (fold_max g l t t (or_introl eq_refl)) as A. rewrite <- Dm in A.
        destruct (proj2 (proj2 Ho) _ (g m) _ E) as [F|F]; auto. congruence.
      + (* a stays: [m] is not [t] unless it occurs later *)
        assert (Hn' : NoDup (a :: l)) by (inversion Hn as [|? ? N1 N2]; inversion N2; constructor; cbn in N1; tauto).
        destruct p as [|a0 p]; [destruct Hu|]. cbn in Hp. injection Hp as <- Hp.
        destruct p as [|t0 p].
        * (* m = t *)
          cbn in Hp. injection Hp as Em _. exfalso.
          destruct (fold_in g l a) as [F|F]; rewrite <- Dm, <- Em in F.
          -- inversion Hn as [|? ? N1 N2]. apply N1. left. auto.
          -- inversion Hn as [|? ? N1 N2]. inversion N2. auto.
        * cbn in Hp. injection Hp as <- Hp.
          assert (Hm : forall u, In u (a :: p) -> gt (g m) (g u) = true).
          { apply (IH a m (a :: p) q Dm Hn'). cbn. f_equal. exact Hp. }
          destruct Hu as [<-|[<-|Hu]]; [apply Hm; now left| |apply Hm; now right].
          specialize (Hm a (or_introl eq_refl)). destruct (proj2 (proj2 Ho) _ (g t) _ Hm) as [F|F]; auto. congruence.
  Qed.
End Choice.
