(** The statements of the interpolation kernels: which terms enter which output,
    and what the programs compute. *)

From Verif Require Import Prelude SpecIndex ModelSlicing ProofSlicing ModelPartition ProofPartition Ring Tensor ModelHaloMixin
  ModelInterpolate.

Lemma flat_map_flat_map {A B C} (f : B -> list C) (g : A -> list B) l :
  flat_map f (flat_map g l) = flat_map (fun x => flat_map f (g x)) l.
Proof. induction l as [|a l IH]; cbn [flat_map]; auto. now rewrite flat_map_app, IH. Qed.

Lemma map_flat_map {A B C} (f : B -> C) (g : A -> list B) l :
  map f (flat_map g l) = flat_map (fun x => map f (g x)) l.
Proof. induction l as [|a l IH]; cbn [flat_map map]; auto. now rewrite map_app, IH. Qed.

Lemma concat_map_flat_map {A B} (f : A -> list B) l : concat (map f l) = flat_map f l.
Proof. now rewrite flat_map_concat_map. Qed.

Lemma flat_map_ext_in {A B} (f g : A -> list B) l : (forall a, In a l -> f a = g a) -> flat_map f l = flat_map g l.
Proof.
  intros H. induction l as [|a l IH]; cbn [flat_map]; auto. rewrite H by now left. f_equal. apply IH. intros; apply H; now right.
Qed.

Section Groups.
  Context {R : CRing}.
  Add Ring R_interp : (rth R).

  (** An output address with the weights and input addresses of its terms. *)
  Definition term := (option R * Z)%type.
  Definition group := (Z * list term)%type.

  Definition fwd_group (g : group) : list stmt :=
    match snd g with
    | [] => []
    | (w, i) :: t => mkstmt false (fst g) w i :: map (fun u => mkstmt true (fst g) (fst u) (snd u)) t
    end.
  Definition adj_group (g : group) : list stmt :=
    map (fun u => mkstmt true (snd u) (fst u) (fst g)) (snd g).

  Definition times (w w' : option R) : option R :=
    match w, w' with
    | Some a, Some b => Some (rmul a b)
    | None, b => b
    | a, None => a
    end.

  Variable pick : kdim -> Z -> list term.

  Definition extend (k : kdim) (o : Z) (terms : list term) : list term :=
    flat_map (fun u => map (fun v => (times (fst u) (fst v), compute_idx (snd u) (n_in k) (snd v))) (pick k o)) terms.

  Fixpoint groups (ks : list kdim) (o : Z) (terms : list term) : list group :=
    match ks with
    | [] => [(o, terms)]
    | k :: ks' => flat_map (fun q => groups ks' (compute_idx o (n_out k) q) (extend k q terms)) (zrange (n_out k))
    end.

  Fixpoint expand (ks : list kdim) (q : list Z) (terms : list term) : list term :=
    match ks, q with
    | k :: ks', o :: q' => expand ks' q' (extend k o terms)
    | _, _ => terms
    end.

  Lemma groups_indices ks : forall o terms,
    groups ks o terms = map (fun q => (cartesian_c_loop o (map n_out ks) q, expand ks q terms)) (indices (map n_out ks)).
  Proof.
    induction ks as [|k ks IH]; intros o terms; cbn [groups map indices]; auto.
    rewrite map_flat_map. apply flat_map_ext. intros q. rewrite IH, map_map. reflexivity.
  Qed.

  Definition picks_inside : Prop := forall k o, 0 < n_in k ->
    pick k o <> [] /\ Forall (fun v => 0 <= snd v < n_in k) (pick k o).

  Lemma extend_inside k o terms lo n : picks_inside -> 0 < n_in k -> 0 <= lo ->
    terms <> [] -> Forall (fun u => lo <= snd u < lo + n) terms ->
    extend k o terms <> [] /\ Forall (fun u => lo * n_in k <= snd u < lo * n_in k + n * n_in k) (extend k o terms).
  Proof.
    intros HP Hk Hlo Hne HF. destruct (HP k o Hk) as [Hp Hf]. split.
    - destruct terms as [|u terms]; [easy|]. unfold extend. cbn [flat_map].
      destruct (pick k o); [easy|]. cbn [map app]. easy.
    - apply Forall_forall. intros v Hv. unfold extend in Hv. apply in_flat_map in Hv as (u & Hu & Hv).
      apply in_map_iff in Hv as (p & <- & Hp'). rewrite Forall_forall in HF, Hf. specialize (HF _ Hu). specialize (Hf _ Hp').
      cbn [snd]. unfold compute_idx. nia.
  Qed.

  Lemma expand_inside ks : picks_inside -> Forall (fun k => 0 < n_in k) ks ->
    forall q terms lo n, length q = length ks -> 0 <= lo -> terms <> [] -> Forall (fun u => lo <= snd u < lo + n) terms ->
    expand ks q terms <> [] /\
    Forall (fun u => lo * zprod (map n_in ks) <= snd u < lo * zprod (map n_in ks) + n * zprod (map n_in ks)) (expand ks q terms).
  Proof.
    intros HP Hks. induction Hks as [|k ks Hk Hks IH]; intros q terms lo n Hq Hlo Hne HF.
    - cbn [expand map zprod fold_right]. split; auto. eapply Forall_impl; [|exact HF]. cbn. intros; lia.
    - destruct q as [|o q]; [discriminate|]. cbn [expand map]. change (zprod (n_in k :: map n_in ks)) with (n_in k * zprod (map n_in ks)).
      destruct (extend_inside k o terms lo n HP Hk Hlo Hne HF) as [E1 E2].
      injection Hq as Hq.
      assert (0 <= lo * n_in k) by nia.
      destruct (IH q _ _ _ Hq H E1 E2) as [F1 F2]. split; auto.
      eapply Forall_impl; [|exact F2]. cbv beta. intros; lia.
  Qed.

  (** All iterations of the outer loop. *)
  Definition all_groups (n : Z) (ks : list kdim) : list group :=
    flat_map (fun c => groups ks c [(None, c)]) (zrange n).

  Lemma all_groups_indices n ks :
    all_groups n ks = map (fun cq => (cartesian_c_loop (hd 0 cq) (map n_out ks) (tl cq), expand ks (tl cq) [(None, hd 0 cq)]))
                          (indices (n :: map n_out ks)).
  Proof.
    unfold all_groups. cbn [indices]. rewrite map_flat_map. apply flat_map_ext. intros c. rewrite groups_indices, map_map. reflexivity.
  Qed.

  Lemma all_groups_nodup n ks : NoDup (map fst (all_groups n ks)).
  Proof.
    rewrite all_groups_indices, map_map. cbn [fst].
    assert (H : forall l : list (list Z), NoDup l -> (forall i, In i l -> valid_index (n :: map n_out ks) i) ->
      NoDup (map (fun cq => cartesian_c_loop (hd 0 cq) (map n_out ks) (tl cq)) l)).
    { intros l HN. induction HN as [|i l Hi HN IH]; intros HV; cbn [map]; constructor.
      - intros Hin. apply in_map_iff in Hin as (j & Ej & Hj).
        pose proof (HV i (or_introl eq_refl)) as Vi. pose proof (HV j (or_intror Hj)) as Vj.
        assert (row_major (n :: map n_out ks) j = row_major (n :: map n_out ks) i).
        { inversion Vi as [|? a ? qa Ha Hqa]; inversion Vj as [|? b ? qb Hb Hqb]; subst. cbn [hd tl] in Ej.
          rewrite !cartesian_c_loop_spec in Ej by (now apply valid_index_length).
          cbn [row_major]. exact Ej. }
        apply row_major_inj in H; auto. now subst.
      - apply IH. intros; apply HV; now right. }
    apply H; [apply indices_nodup|]. intros i Hi. now apply in_indices.
  Qed.

  Lemma all_groups_bounds n ks g : picks_inside -> Forall (fun k => 0 < n_in k) ks -> In g (all_groups n ks) ->
    0 <= fst g < n * zprod (map n_out ks) /\ snd g <> [] /\
    Forall (fun u => 0 <= snd u < n * zprod (map n_in ks)) (snd g).
  Proof.
    intros HP Hks Hg. rewrite all_groups_indices in Hg. apply in_map_iff in Hg as (cq & <- & Hcq).
    apply in_indices in Hcq. inversion Hcq as [|? c ? q Hc Hq]; subst. cbn [hd tl fst snd].
    pose proof (row_major_bound _ _ Hq). rewrite cartesian_c_loop_spec by now apply valid_index_length.
    split; [nia|].
    destruct (expand_inside ks HP Hks q [(None, c)] c 1) as [E1 E2].
    - apply valid_index_length in Hq. rewrite map_length in Hq. auto.
    - lia.
    - easy.
    - constructor; [cbn; lia|constructor].
    - split; auto. eapply Forall_impl; [|exact E2]. cbv beta. intros u Hu.
      assert (0 <= zprod (map n_in ks)). { clear -Hks. induction Hks; cbn [map]; [cbn; lia|]. unfold zprod in *; cbn [fold_right]. nia. }
      assert ((c + 1) * zprod (map n_in ks) <= n * zprod (map n_in ks)) by (apply Z.mul_le_mono_nonneg_r; lia).
      assert (0 <= c * zprod (map n_in ks)) by (apply Z.mul_nonneg_nonneg; lia). lia.
  Qed.

  (** * Execution *)

  Definition tvalue (src : buffer) (u : term) : R :=
    match fst u with Some w => rmul w (src (snd u)) | None => src (snd u) end.

  Lemma run_app (p q : list (@stmt R)) src dst : run (p ++ q) src dst = run q src (run p src dst).
  Proof. unfold run. apply fold_left_app. Qed.

  Lemma run_adds (o : Z) (t : list term) src : forall dst a,
    run (map (fun u => mkstmt true o (fst u) (snd u)) t) src dst a =
    if a =? o then radd (dst a) (sumf t (tvalue src)) else dst a.
  Proof.
    induction t as [|u t IH]; intros dst a; cbn [map].
    - cbn [run fold_left]. rewrite sumf_nil. destruct (a =? o); auto. ring.
    - change (run (mkstmt true o (fst u) (snd u) :: map (fun u => mkstmt true o (fst u) (snd u)) t) src dst a)
        with (run (map (fun u => mkstmt true o (fst u) (snd u)) t) src (exec src dst (mkstmt true o (fst u) (snd u))) a).
      rewrite IH. unfold exec. cbn [st_to st_add]. destruct (a =? o); auto.
      rewrite sumf_cons. unfold st_value, tvalue. cbn [st_weight st_from]. ring.
  Qed.

  Lemma run_fwd_group g src dst a : snd g <> [] ->
    run (fwd_group g) src dst a = if a =? fst g then sumf (snd g) (tvalue src) else dst a.
  Proof.
    destruct g as [o [|[w i] t]]; [easy|]. intros _. unfold fwd_group. cbn [fst snd].
    change (run (mkstmt false o w i :: map (fun u => mkstmt true o (fst u) (snd u)) t) src dst a)
      with (run (map (fun u => mkstmt true o (fst u) (snd u)) t) src (exec src dst (mkstmt false o w i)) a).
    rewrite run_adds. unfold exec. cbn [st_to st_add]. destruct (a =? o); auto.
  Qed.

  Lemma run_fwd gs src : Forall (fun g => snd g <> []) gs -> NoDup (map fst gs) -> forall dst a,
    (~ In a (map fst gs) -> run (flat_map fwd_group gs) src dst a = dst a) /\
    (forall t, In (a, t) gs -> run (flat_map fwd_group gs) src dst a = sumf t (tvalue src)).
  Proof.
    induction gs as [|g gs IH]; intros HF HN dst a; cbn [flat_map map].
    - split; [reflexivity|intros t []].
    - inv HF. cbn [map] in HN. inv HN. rewrite run_app. destruct (IH H2 H4 (run (fwd_group g) src dst) a) as [I1 I2]. split.
      + intros Hn. rewrite I1 by (intros Hin; apply Hn; now right). rewrite run_fwd_group by auto.
        destruct (Z.eqb_spec a (fst g)); auto. exfalso. apply Hn. now left.
      + intros t [-> |Hin].
        * cbn [fst snd] in *. rewrite I1 by auto. rewrite run_fwd_group by auto. cbn [fst snd]. now rewrite Z.eqb_refl.
        * now apply I2.
  Qed.

  Lemma run_adj_group g src dst a :
    run (adj_group g) src dst a =
    radd (dst a) (sumf (snd g) (fun u => if Z.eq_dec (snd u) a then tvalue src (fst u, fst g) else rzero)).
  Proof.
    destruct g as [o t]. unfold adj_group. cbn [fst snd]. revert dst. induction t as [|u t IH]; intros dst; cbn [map].
    - cbn [run fold_left]. rewrite sumf_nil. ring.
    - change (run (mkstmt true (snd u) (fst u) o :: map (fun u => mkstmt true (snd u) (fst u) o) t) src dst a)
        with (run (map (fun u => mkstmt true (snd u) (fst u) o) t) src (exec src dst (mkstmt true (snd u) (fst u) o)) a).
      rewrite IH, sumf_cons. unfold exec. cbn [st_to st_add]. unfold st_value, tvalue. cbn [st_weight st_from fst snd].
      destruct (Z.eq_dec (snd u) a) as [e|n].
      + rewrite (proj2 (Z.eqb_eq a (snd u))) by auto. ring.
      + rewrite (proj2 (Z.eqb_neq a (snd u))) by auto. ring.
  Qed.

  Lemma run_adj gs src : forall dst a,
    run (flat_map adj_group gs) src dst a =
    radd (dst a) (sumf gs (fun g => sumf (snd g) (fun u => if Z.eq_dec (snd u) a then tvalue src (fst u, fst g) else rzero))).
  Proof.
    induction gs as [|g gs IH]; intros dst a; cbn [flat_map].
    - cbn [run fold_left]. rewrite sumf_nil. ring.
    - rewrite run_app, IH, run_adj_group, sumf_cons. ring.
  Qed.

  (** Both programs, seen as bilinear forms. *)
  Lemma fwd_sum gs (x dy : buffer) n : Forall (fun g => snd g <> [] /\ 0 <= fst g < n) gs -> NoDup (map fst gs) ->
    sumf (zrange n) (fun a => rmul (run (flat_map fwd_group gs) x (fun _ => rzero) a) (dy a)) =
    sumf gs (fun g => sumf (snd g) (fun u => rmul (tvalue x u) (dy (fst g)))).
  Proof.
    intros HF HN.
    assert (HF1 : Forall (fun g : group => snd g <> []) gs) by (eapply Forall_impl; [|exact HF]; cbv beta; intros ? [? ?]; assumption).
    rewrite <- (sumf_fibres Z.eq_dec gs (zrange n) fst) by
      (apply zrange_nodup || (intros g Hg; rewrite Forall_forall in HF; apply in_zrange; apply HF, Hg)).
    apply sumf_ext. intros a _.
    destruct (in_dec Z.eq_dec a (map fst gs)) as [Hin|Hn].
    - apply in_map_iff in Hin as ([o t] & E & Hg). cbn [fst] in E. subst o.
      rewrite (proj2 (run_fwd gs x HF1 HN _ a) t Hg).
      assert (HN2 : NoDup gs) by (eapply NoDup_map_inv; exact HN).
      rewrite (sumf_single gs _ (a, t)); auto.
      + cbn [fst snd]. destruct (Z.eq_dec a a); [|easy]. now rewrite sumf_mul_r.
      + intros g' Hg' Hne. destruct (Z.eq_dec (fst g') a); auto. exfalso. apply Hne.
        clear -HN Hg Hg' e. induction gs as [|g gs IH]; [easy|]. cbn [map] in HN. inv HN.
        destruct Hg as [-> |Hg], Hg' as [-> |Hg']; auto.
        * exfalso. apply H1. apply in_map_iff. exists g'. auto.
        * exfalso. apply H1. apply in_map_iff. exists (fst g', t). auto.
    - rewrite (proj1 (run_fwd gs x HF1 HN _ a)) by auto. rewrite mul_zero_l. symmetry. apply sumf_zero.
      intros g Hg. destruct (Z.eq_dec (fst g) a); auto. exfalso. apply Hn. subst. now apply in_map.
  Qed.

  Lemma adj_sum gs (x dy : buffer) n : Forall (fun g => Forall (fun u => 0 <= snd u < n) (snd g)) gs ->
    sumf (zrange n) (fun a => rmul (x a) (run (flat_map adj_group gs) dy (fun _ => rzero) a)) =
    sumf gs (fun g => sumf (snd g) (fun u => rmul (tvalue x u) (dy (fst g)))).
  Proof.
    intros HF.
    transitivity (sumf (zrange n) (fun a => sumf gs (fun g => sumf (snd g) (fun u =>
      if Z.eq_dec (snd u) a then rmul (tvalue x u) (dy (fst g)) else rzero)))).
    - apply sumf_ext. intros a _. rewrite run_adj. match goal with |- rmul _ (radd rzero ?s) = _ => replace (radd rzero s) with s by ring end.
      rewrite <- sumf_mul_l. apply sumf_ext. intros g _.
      rewrite <- sumf_mul_l. apply sumf_ext. intros u _. destruct (Z.eq_dec (snd u) a) as [<-|]; [|ring].
      unfold tvalue, term. cbn [fst snd]. destruct (fst u); ring.
    - rewrite sumf_exchange. apply sumf_ext. intros g Hg.
      rewrite (sumf_fibres Z.eq_dec (snd g) (zrange n) snd); auto.
      + apply zrange_nodup.
      + intros u Hu. rewrite Forall_forall in HF. specialize (HF _ Hg). rewrite Forall_forall in HF.
        apply in_zrange. auto.
  Qed.
End Groups.

(** * The kernels of the model *)
Section Kernels.
  Context {R : CRing}.
  Variable A : scalars.
  Variable weight : scalar A -> R.

  Definition pick_of (mode : imode A) (k : kdim) (o : Z) : list (option R * Z) :=
    match mode with
    | Nearest => [(None, compute_nearest_left_idx_weight A k o)]
    | Linear s a =>
        let '(i0, w0, i1, w1) := compute_linear_idx_weight A s a k o in
        [(Some (weight w0), i0); (Some (weight w1), i1)]
    end.

  Lemma clamp_inside i n : 0 < n -> 0 <= clamp_idx_to_range i 0 (n - 1) < n.
  Proof. unfold clamp_idx_to_range. lia. Qed.

  Lemma pick_inside mode : picks_inside (pick_of mode).
  Proof.
    intros k o Hk. destruct mode as [|s a]; unfold pick_of.
    - split; [easy|]. constructor; [|constructor]. cbn [snd]. now apply clamp_inside.
    - unfold compute_linear_idx_weight. cbv zeta. cbv iota. split; [easy|].
      repeat constructor; cbn [snd]; now apply clamp_inside.
  Qed.

  Definition feature_dims (n : nat) (dim : nat -> kdim) : list kdim := map dim (seq 2 (n - 2)).

  Definition kernel_group (adjoint : bool) : @group R -> list stmt := if adjoint then adj_group else fwd_group.

  Lemma threads_groups mode adjoint sizes dim : (3 <= length sizes <= 5)%nat ->
    threads A weight mode adjoint sizes dim =
    Some (map (fun c => flat_map (kernel_group adjoint) (groups (pick_of mode) (feature_dims (length sizes) dim) c [(None, c)]))
              (zrange (nth 0 sizes 0 * nth 1 sizes 0))).
  Proof.
    intros HL. unfold threads.
    assert (F : forall b b' : Z -> list (@stmt R), (forall c, b c = b' c) ->
      option_map (fun b => map b (zrange (nth 0 sizes 0 * nth 1 sizes 0))) (Some b) =
      Some (map b' (zrange (nth 0 sizes 0 * nth 1 sizes 0)))).
    { intros b b' E. cbn [option_map]. f_equal. now apply map_ext. }
    assert (length sizes = 3 \/ length sizes = 4 \/ length sizes = 5)%nat as [E|[E|E]] by lia; rewrite E;
      unfold feature_dims; cbn [seq map Nat.sub]; destruct mode as [|s a], adjoint; apply F; intros c; unfold kernel_group;
      unfold constant_fwd_1d, constant_fwd_2d, constant_fwd_3d, constant_adj_1d, constant_adj_2d, constant_adj_3d,
        linear_fwd_1d, linear_fwd_2d, linear_fwd_3d, linear_adj_1d, linear_adj_2d, linear_adj_3d, loop;
      cbn [groups]; rewrite flat_map_flat_map; apply flat_map_ext; intros o2;
      try (destruct (compute_linear_idx_weight A s a (dim 2%nat) o2) as [[[? ?] ?] ?] eqn:E2);
      try (rewrite flat_map_flat_map; apply flat_map_ext; intros o1;
           try (destruct (compute_linear_idx_weight A s a (dim 3%nat) o1) as [[[? ?] ?] ?] eqn:E1));
      try (rewrite flat_map_flat_map; apply flat_map_ext; intros o0;
           try (destruct (compute_linear_idx_weight A s a (dim 4%nat) o0) as [[[? ?] ?] ?] eqn:E0));
      cbn [flat_map app]; unfold extend, pick_of; rewrite ?E2, ?E1, ?E0; reflexivity.
  Qed.

  Lemma threads_all mode adjoint sizes dim : (3 <= length sizes <= 5)%nat ->
    exists ts, threads A weight mode adjoint sizes dim = Some ts /\
      concat ts = flat_map (kernel_group adjoint)
        (all_groups (pick_of mode) (nth 0 sizes 0 * nth 1 sizes 0) (feature_dims (length sizes) dim)).
  Proof.
    intros HL. eexists. split; [now apply threads_groups|].
    unfold all_groups. now rewrite flat_map_flat_map, concat_map_flat_map.
  Qed.
End Kernels.
