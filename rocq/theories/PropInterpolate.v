(** Interpolation kernels: the adjoint kernel is the adjoint of the forward
    kernel (C37); the parallel loops are free of races and stay inside the
    tensors (C47). *)

From Coq Require Import QArith Qcanon.
From Verif Require Import Prelude SpecIndex ModelSlicing ProofSlicing ModelPartition ProofPartition Ring Tensor ModelHaloMixin
  PropBatchNorm ModelInterpolate ProofInterpolate ModelScalars.
Local Open Scope Z_scope.

(** * C37 *)

(** Local tensors of [nb] batches, [nc] channels and one to three feature
    dimensions, given by the slices of the global tensors that they are. *)
Definition local_shapes (nb nc : Z) (xs ys x_start x_stop y_start y_stop : list Z) : Prop :=
  (1 <= length xs <= 3)%nat /\ length ys = length xs /\
  pos_shape (nb :: nc :: xs) /\ pos_shape (nb :: nc :: ys) /\
  map2 Z.sub x_stop x_start = nb :: nc :: xs /\ map2 Z.sub y_stop y_start = nb :: nc :: ys.

Definition C37_statement : Prop :=
  forall (R : CRing) (A : scalars) (weight : scalar A -> R) (mode : imode A)
    nb nc xs ys x_start x_stop x_global y_start y_stop y_global (x dy : tensor R),
    local_shapes nb nc xs ys x_start x_stop y_start y_stop ->
    tshape x = nb :: nc :: xs -> tshape dy = nb :: nc :: ys ->
    exists y dx,
      interpolate_forward A weight mode x_start x_global y_start y_stop y_global x = Ok y /\
      interpolate_backward A weight mode x_start x_stop x_global y_start y_global dy = Ok dx /\
      tshape y = tshape dy /\ tshape dx = tshape x /\
      inner y dy = inner x dx.

Lemma sum_memory {R : CRing} sh (f : list Z -> R) : pos_shape sh ->
  sumf (indices sh) f = sumf (zrange (zprod sh)) (fun a => f (cart_coords sh a)).
Proof.
  intros Hs. symmetry. rewrite (sumf_reindex (indices sh) (zrange (zprod sh)) (row_major sh)).
  - apply sumf_ext. intros i Hi. apply in_indices in Hi. now rewrite cart_coords_row_major.
  - apply indices_nodup.
  - apply zrange_nodup.
  - intros i Hi. apply in_zrange, row_major_bound. now apply in_indices.
  - intros i j Hi Hj. apply row_major_inj; now apply in_indices.
  - intros a Ha. apply in_zrange in Ha. destruct (row_major_surj sh a) as (i & Hi & E); auto.
    + eapply Forall_impl; [|exact Hs]. cbn. intros; lia.
    + exists i. split; auto. now apply in_indices.
Qed.

Lemma inner_memory_l {R : CRing} (m : @buffer R) (t : tensor R) : pos_shape (tshape t) ->
  inner (of_memory (tshape t) m) t = sumf (zrange (zprod (tshape t))) (fun a => rmul (m a) (memory t a)).
Proof.
  intros H. unfold inner. cbn [of_memory tshape]. rewrite sum_memory by auto. apply sumf_ext. intros a Ha.
  apply in_zrange in Ha. unfold of_memory, memory. cbn [tat]. destruct (cart_coords_spec (tshape t) a H Ha) as [Hv E].
  rewrite cartesian_index_c_row_major by now apply valid_index_length. now rewrite E.
Qed.

Lemma inner_memory_r {R : CRing} (m : @buffer R) (t : tensor R) : pos_shape (tshape t) ->
  inner t (of_memory (tshape t) m) = sumf (zrange (zprod (tshape t))) (fun a => rmul (memory t a) (m a)).
Proof.
  intros H. unfold inner. rewrite sum_memory by auto. apply sumf_ext. intros a Ha.
  apply in_zrange in Ha. unfold of_memory, memory. cbn [tat]. destruct (cart_coords_spec (tshape t) a H Ha) as [Hv E].
  rewrite cartesian_index_c_row_major by now apply valid_index_length. now rewrite E.
Qed.

Lemma feature_dims_nth f n dim l : (2 <= n)%nat ->
  (forall d, (d < n)%nat -> f (dim d) = nth d l 0) -> length l = n ->
  map f (feature_dims n dim) = tl (tl l).
Proof.
  intros Hn H HL. unfold feature_dims. rewrite map_map.
  destruct l as [|a [|b l]]; cbn [length] in HL; try lia. cbn [tl].
  replace (n - 2)%nat with (length l) by lia.
  transitivity (map (fun d => nth (d - 2) l 0) (seq 2 (length l))).
  - apply map_ext_in. intros d Hd. apply in_seq in Hd. rewrite H by lia.
    destruct d as [|[|d]]; try lia. cbn [nth Nat.sub]. f_equal. lia.
  - clear. replace (seq 2 (length l)) with (map (fun d => 2 + d)%nat (seq 0 (length l))).
    + rewrite map_map. transitivity (map (fun d => nth d l 0) (seq 0 (length l))).
      * apply map_ext. intros d. f_equal. lia.
      * symmetry. clear. induction l as [|a l IH]; auto. cbn [length seq map nth]. f_equal.
        rewrite <- seq_shift, map_map. exact IH.
    + rewrite <- !seq_shift, !map_map. apply map_ext. intros; lia.
Qed.

Section Call.
  Context {R : CRing}.
  Variables (A : scalars) (weight : scalar A -> R) (mode : imode A).
  Variables (nb nc : Z) (xs ys : list Z).
  Variable dim : nat -> kdim.
  Hypothesis HL : (1 <= length xs <= 3)%nat.
  Hypothesis HY : length ys = length xs.
  Hypothesis PX : pos_shape (nb :: nc :: xs).
  Hypothesis PY : pos_shape (nb :: nc :: ys).
  Hypothesis DI : forall d, (d < length (nb :: nc :: xs))%nat -> n_in (dim d) = nth d (nb :: nc :: xs) 0.
  Hypothesis DO : forall d, (d < length (nb :: nc :: xs))%nat -> n_out (dim d) = nth d (nb :: nc :: ys) 0.

  Definition kdims : list kdim := feature_dims (length (nb :: nc :: xs)) dim.
  Definition kgroups : list group := all_groups (pick_of A weight mode) (nb * nc) kdims.

  Lemma kdims_in : map n_in kdims = xs.
  Proof using HL DI. clear PX PY DO HY. unfold kdims. rewrite (feature_dims_nth n_in _ dim (nb :: nc :: xs)); cbn [length tl]; auto; lia. Qed.

  Lemma kdims_out : map n_out kdims = ys.
  Proof using HL HY DO. clear PX PY DI. unfold kdims. rewrite (feature_dims_nth n_out _ dim (nb :: nc :: ys)); cbn [length tl] in *; auto; lia. Qed.

  Lemma kdims_pos : Forall (fun k => 0 < n_in k) kdims.
  Proof using HL DI PX.
    pose proof PX as H. apply Forall_inv_tail, Forall_inv_tail in H. rewrite <- kdims_in in H. exact (proj1 (Forall_map _ _ _) H).
  Qed.

  Lemma kgroups_bounds g : In g kgroups ->
    0 <= fst g < zprod (nb :: nc :: ys) /\ snd g <> [] /\ Forall (fun u => 0 <= snd u < zprod (nb :: nc :: xs)) (snd g).
  Proof.
    intros Hg. apply (all_groups_bounds (pick_of A weight mode) (nb * nc) kdims) in Hg; auto using pick_inside, kdims_pos.
    rewrite kdims_in, kdims_out in Hg. unfold zprod in *. cbn [fold_right] in *. now rewrite !Z.mul_assoc.
  Qed.
End Call.

Lemma C37_proof : C37_statement.
Proof.
  intros R A weight mode nb nc xs ys x_start x_stop x_global y_start y_stop y_global x dy
    (HL & HY & PX & PY & EX & EY) Sx Sy.
  unfold interpolate_forward, interpolate_backward. rewrite EX, EY, Sx, Sy.
  set (dim := kernel_dim (nb :: nc :: xs) x_start x_global (nb :: nc :: ys) y_start y_global).
  destruct (threads_all A weight mode false (nb :: nc :: xs) dim) as (tf & E1 & F1); [cbn [length]; lia|].
  destruct (threads_all A weight mode true (nb :: nc :: xs) dim) as (ta & E2 & F2); [cbn [length]; lia|].
  rewrite E1, E2, F1, F2. cbn [nth]. eexists. eexists. split; [reflexivity|]. split; [reflexivity|].
  split; [reflexivity|]. split; [reflexivity|].
  assert (IY : forall m, inner (of_memory (nb :: nc :: ys) m) dy =
    sumf (zrange (zprod (nb :: nc :: ys))) (fun a => rmul (m a) (memory dy a)))
    by (intros m; rewrite <- Sy; apply inner_memory_l; now rewrite Sy).
  assert (IX : forall m, inner x (of_memory (nb :: nc :: xs) m) =
    sumf (zrange (zprod (nb :: nc :: xs))) (fun a => rmul (memory x a) (m a)))
    by (intros m; rewrite <- Sx; apply inner_memory_r; now rewrite Sx).
  rewrite IX, IY.
  change (feature_dims (length (nb :: nc :: xs)) dim) with (kdims nb nc xs dim).
  assert (HB : forall g, In g (kgroups A weight mode nb nc xs dim) ->
    0 <= fst g < zprod (nb :: nc :: ys) /\ snd g <> [] /\ Forall (fun u => 0 <= snd u < zprod (nb :: nc :: xs)) (snd g)).
  { intros g. apply kgroups_bounds; auto. }
  unfold kernel_group. rewrite fwd_sum.
  - rewrite adj_sum; auto. apply Forall_forall. intros g Hg. now apply HB.
  - apply Forall_forall. intros g Hg. destruct (HB g Hg) as (? & ? & ?). auto.
  - apply all_groups_nodup.
Qed.

Theorem C37_interpolation_adjoint : C37_statement.
Proof. exact C37_proof. Qed.

(** * C47 *)

(** Any order in which the iterations [ts] of a parallel loop may be executed. *)
Inductive interleaving {A} : list (list A) -> list A -> Prop :=
| il_done ts : Forall (fun t => t = []) ts -> interleaving ts []
| il_step before t after a l :
    interleaving (before ++ t :: after) l -> interleaving (before ++ (a :: t) :: after) (a :: l).

(** The statement reads from a tensor of [n_from] elements and writes to one of
    [n_to] elements. *)
Definition stays_inside {R : CRing} (n_from n_to : Z) (s : @stmt R) : Prop :=
  0 <= st_from s < n_from /\ 0 <= st_to s < n_to.

Definition C47_statement : Prop :=
  forall (R : CRing) (A : scalars) (weight : scalar A -> R) (mode : imode A) (adjoint : bool)
    nb nc xs ys x_start x_global y_start y_global,
    (1 <= length xs <= 3)%nat -> length ys = length xs ->
    pos_shape (nb :: nc :: xs) -> pos_shape (nb :: nc :: ys) ->
    let n_x := zprod (nb :: nc :: xs) in
    let n_y := zprod (nb :: nc :: ys) in
    exists ts,
      threads A weight mode adjoint (nb :: nc :: xs)
        (kernel_dim (nb :: nc :: xs) x_start x_global (nb :: nc :: ys) y_start y_global) = Some ts /\
      Forall (if adjoint then stays_inside n_y n_x else stays_inside n_x n_y) (concat ts) /\
      forall order (src dst : @buffer R), interleaving ts order ->
        forall a, run order src dst a = run (concat ts) src dst a.

Lemma filter_concat {A} (p : A -> bool) ts : filter p (concat ts) = concat (map (filter p) ts).
Proof. induction ts as [|t ts IH]; cbn [concat map]; auto. now rewrite filter_app, IH. Qed.

(** If iteration [k] executes statements owned by [k] only, every execution order
    contains the statements of [k] in their order. *)
Lemma interleaving_owner {A} (own : A -> Z) ts l : interleaving ts l ->
  (forall k t, nth_error ts k = Some t -> Forall (fun a => own a = Z.of_nat k) t) ->
  forall k, filter (fun a => own a =? k) l = filter (fun a => own a =? k) (concat ts).
Proof.
  induction 1 as [ts H|before t after a l H IH]; intros HO k.
  - replace (concat ts) with (@nil A); auto. clear -H. induction H as [|t ts E H IH]; auto. subst. exact IH.
  - assert (HO' : forall k t', nth_error (before ++ t :: after) k = Some t' -> Forall (fun a => own a = Z.of_nat k) t').
    { intros j t' E. destruct (Nat.eq_dec j (length before)) as [->|N].
      - rewrite nth_error_app2, Nat.sub_diag in E by lia. cbn in E. injection E as <-.
        assert (E : nth_error (before ++ (a :: t) :: after) (length before) = Some (a :: t))
          by (rewrite nth_error_app2, Nat.sub_diag by lia; reflexivity).
        apply HO in E. now inv E.
      - apply HO. rewrite <- E. destruct (Nat.lt_ge_cases j (length before)).
        + now rewrite !nth_error_app1 by lia.
        + rewrite !nth_error_app2 by lia. destruct (j - length before)%nat eqn:D; [lia|reflexivity]. }
    specialize (IH HO' k).
    assert (Ea : own a = Z.of_nat (length before)).
    { assert (E : nth_error (before ++ (a :: t) :: after) (length before) = Some (a :: t))
        by (rewrite nth_error_app2, Nat.sub_diag by lia; reflexivity).
      apply HO in E. now inv E. }
    cbn [filter]. rewrite IH, !concat_app, !filter_app. cbn [concat]. rewrite !filter_app. cbn [filter].
    destruct (Z.eqb_spec (own a) k) as [Ek|Ek]; auto.
    replace (filter (fun a0 => own a0 =? k) (concat before)) with (@nil A); auto.
    symmetry. rewrite filter_concat.
    assert (HB : forall t', In t' before -> filter (fun a0 => own a0 =? k) t' = []).
    { intros t' Ht'. apply In_nth_error in Ht' as (j & Ej).
      assert (j < length before)%nat by (apply nth_error_Some; congruence).
      assert (F : Forall (fun a => own a = Z.of_nat j) t') by (apply HO; rewrite nth_error_app1; auto).
      clear -F Ea Ek H0. induction F as [|b t' Hb F IH]; auto. cbn [filter]. rewrite IH.
      destruct (Z.eqb_spec (own b) k); auto. lia. }
    clear -HB. induction before as [|b before IH]; auto. cbn [map concat]. rewrite HB by now left.
    apply IH. intros; apply HB; now right.
Qed.

Lemma run_filter {R : CRing} (l : list (@stmt R)) src a : forall dst,
  run l src dst a = run (filter (fun s => st_to s =? a) l) src dst a.
Proof.
  induction l as [|s l IH]; intros dst; auto.
  change (run (s :: l) src dst a) with (run l src (exec src dst s) a). cbn [filter].
  destruct (Z.eqb_spec (st_to s) a) as [E|N].
  - apply IH.
  - rewrite IH. generalize (filter (fun s => st_to s =? a) l) as p. intros p.
    assert (H : forall d d' : @buffer R, d a = d' a -> run p src d a = run p src d' a).
    { induction p as [|s' p IHp]; intros d d' E; auto. cbn [run fold_left] in *. apply IHp. unfold exec.
      destruct (a =? st_to s'); auto. now rewrite E. }
    apply H. unfold exec. destruct (Z.eqb_spec a (st_to s)); congruence.
Qed.

Lemma filter_filter_imp {A} (p q : A -> bool) l : (forall a, p a = true -> q a = true) ->
  filter p (filter q l) = filter p l.
Proof.
  intros H. induction l as [|a l IH]; auto. cbn [filter]. destruct (q a) eqn:Q; cbn [filter]; destruct (p a) eqn:P; rewrite ?IH; auto.
  rewrite H in Q by auto. discriminate.
Qed.

Lemma interleaving_run {R : CRing} (n : Z) (ts : list (list (@stmt R))) l src dst a : 0 < n ->
  (forall k t, nth_error ts k = Some t -> Forall (fun s => st_to s / n = Z.of_nat k) t) ->
  interleaving ts l -> run l src dst a = run (concat ts) src dst a.
Proof.
  intros Hn HO HI. rewrite (run_filter l), (run_filter (concat ts)).
  rewrite <- (filter_filter_imp (fun s => st_to s =? a) (fun s => st_to s / n =? a / n) l)
    by (intros s E; breflect; apply Z.eqb_eq; now subst).
  rewrite <- (filter_filter_imp (fun s => st_to s =? a) (fun s => st_to s / n =? a / n) (concat ts))
    by (intros s E; breflect; apply Z.eqb_eq; now subst).
  now rewrite (interleaving_owner (fun s => st_to s / n) ts l HI HO (a / n)).
Qed.

(** The addresses of iteration [c]. *)
Lemma groups_owner {R : CRing} (pick : kdim -> Z -> list (@term R)) ks c g : picks_inside pick ->
  Forall (fun k => 0 < n_in k) ks -> 0 <= c ->
  In g (groups pick ks c [(None, c)]) ->
  c * zprod (map n_out ks) <= fst g < c * zprod (map n_out ks) + zprod (map n_out ks) /\ snd g <> [] /\
  Forall (fun u => c * zprod (map n_in ks) <= snd u < c * zprod (map n_in ks) + zprod (map n_in ks)) (snd g).
Proof.
  intros HP Hks Hc Hg. rewrite groups_indices in Hg. apply in_map_iff in Hg as (q & <- & Hq). apply in_indices in Hq.
  cbn [fst snd]. pose proof (row_major_bound _ _ Hq). rewrite cartesian_c_loop_spec by now apply valid_index_length.
  split; [lia|].
  destruct (expand_inside pick ks HP Hks q [(None, c)] c 1) as [E1 E2]; auto.
  - apply valid_index_length in Hq. rewrite map_length in Hq. auto.
  - easy.
  - constructor; [cbn [snd]; lia|constructor].
  - split; auto. eapply Forall_impl; [|exact E2]. cbv beta. intros; lia.
Qed.

Lemma group_stmt {R : CRing} adjoint (g : @group R) s : In s (kernel_group adjoint g) ->
  exists u, In u (snd g) /\
    if adjoint then st_from s = fst g /\ st_to s = snd u else st_from s = snd u /\ st_to s = fst g.
Proof.
  destruct g as [o t]. destruct adjoint; unfold kernel_group, adj_group, fwd_group; cbn [fst snd].
  - intros H. apply in_map_iff in H as (u & <- & Hu). exists u. auto.
  - destruct t as [|[w i] t]; [easy|]. intros [<-|H].
    + exists (w, i). cbn. auto.
    + apply in_map_iff in H as (u & <- & Hu). exists u. cbn. auto.
Qed.

Lemma C47_proof : C47_statement.
Proof.
  intros R A weight mode adjoint nb nc xs ys x_start x_global y_start y_global HL HY PX PY n_x n_y.
  set (dim := kernel_dim (nb :: nc :: xs) x_start x_global (nb :: nc :: ys) y_start y_global).
  eexists. split; [apply threads_groups; cbn [length]; lia|].
  change (feature_dims (length (nb :: nc :: xs)) dim) with (kdims nb nc xs dim). cbn [nth].
  assert (EI : map n_in (kdims nb nc xs dim) = xs) by (apply kdims_in; auto).
  assert (EO : map n_out (kdims nb nc xs dim) = ys) by (apply (kdims_out nb nc xs ys); auto).
  assert (KP : Forall (fun k => 0 < n_in k) (kdims nb nc xs dim)) by (apply kdims_pos; auto).
  assert (Px : 0 < zprod xs) by (apply Forall_inv_tail, Forall_inv_tail in PX; clear -PX; induction PX; unfold zprod in *; cbn [fold_right]; nia).
  assert (Py : 0 < zprod ys) by (apply Forall_inv_tail, Forall_inv_tail in PY; clear -PY; induction PY; unfold zprod in *; cbn [fold_right]; nia).
  assert (Pbc : 0 < nb /\ 0 < nc) by (inversion PX as [|? ? ? H']; inversion H'; auto).
  assert (Nx : n_x = nb * nc * zprod xs) by (unfold n_x, zprod; cbn [fold_right]; lia).
  assert (Ny : n_y = nb * nc * zprod ys) by (unfold n_y, zprod; cbn [fold_right]; lia).
  clearbody n_x n_y.
  assert (HS : forall c s, 0 <= c < nb * nc ->
     In s (flat_map (kernel_group adjoint) (groups (pick_of A weight mode) (kdims nb nc xs dim) c [(None, c)])) ->
     if adjoint then c * zprod xs <= st_to s < c * zprod xs + zprod xs /\ c * zprod ys <= st_from s < c * zprod ys + zprod ys
     else c * zprod ys <= st_to s < c * zprod ys + zprod ys /\ c * zprod xs <= st_from s < c * zprod xs + zprod xs).
  { intros c s Hc Hs. apply in_flat_map in Hs as (g & Hg & Hs). apply group_stmt in Hs as (u & Hu & Hs).
    apply groups_owner in Hg as (G1 & _ & G2); auto using pick_inside; [|lia]. rewrite EI in G2. rewrite EO in G1.
    rewrite Forall_forall in G2. specialize (G2 _ Hu). destruct adjoint, Hs as [-> ->]; auto. }
  split.
  - apply Forall_forall. intros s Hs. apply in_concat in Hs as (t & Ht & Hs). apply in_map_iff in Ht as (c & <- & Hc).
    apply in_zrange in Hc. specialize (HS c s Hc Hs).
    assert (forall z, 0 < z -> c * z + z <= nb * nc * z /\ 0 <= c * z) as HZ.
    { intros z Hz. split; [|nia]. replace (c * z + z) with ((c + 1) * z) by lia. apply Z.mul_le_mono_nonneg_r; lia. }
    pose proof (HZ _ Px). pose proof (HZ _ Py). destruct adjoint; unfold stays_inside; lia.
  - intros order src dst HI a.
    apply (interleaving_run (if adjoint then zprod xs else zprod ys)); auto; [destruct adjoint; auto|].
    intros k t E. rewrite nth_error_map in E.
    destruct (nth_error (zrange (nb * nc)) k) as [c|] eqn:Ec; [|discriminate]. injection E as <-.
    assert (Hk : (k < Z.to_nat (nb * nc))%nat) by (rewrite <- zrange_length; apply nth_error_Some; congruence).
    rewrite zrange_nth_error in Ec by auto. injection Ec as <-.
    apply Forall_forall. intros s Hs. apply HS in Hs; [|lia].
    destruct adjoint; destruct Hs as [Hs _]; symmetry.
    + apply Z.div_unique with (r := st_to s - Z.of_nat k * zprod xs); lia.
    + apply Z.div_unique with (r := st_to s - Z.of_nat k * zprod ys); lia.
Qed.

Theorem C47_interpolation_parallel : C47_statement.
Proof. exact C47_proof. Qed.

(** * Examples *)

(** The worker that computes rows 2 - 4 and columns 0 - 2 of a tensor of 5 x 4, from
    rows 0 - 2 and columns 0 - 1 of a tensor of 3 x 3, for two channels: bilinear. *)
Definition ex_x : tensor Qring := @mkt Qring [1; 2; 3; 2] (fun i => Qint (7 * nth 1 i 0 + nth 2 i 0 * nth 2 i 0 + 3 * nth 3 i 0)).
Definition ex_dy : tensor Qring := @mkt Qring [1; 2; 3; 3] (fun i => Qint (nth 1 i 0 + 2 * nth 2 i 0 - nth 3 i 0)).
Definition ex_mode : imode exact := Linear None false.
Definition ex_fwd := interpolate_forward exact (fun a : Qc => a : Qring) ex_mode [0; 0; 0; 0] [1; 2; 3; 3] [0; 0; 2; 0] [1; 2; 5; 3] [1; 2; 5; 4] ex_x.
Definition ex_bwd := interpolate_backward exact (fun a : Qc => a : Qring) ex_mode [0; 0; 0; 0] [1; 2; 3; 2] [1; 2; 3; 3] [0; 0; 2; 0] [1; 2; 5; 4] ex_dy.

Example C37_example :
  local_shapes 1 2 [3; 2] [3; 3] [0; 0; 0; 0] [1; 2; 3; 2] [0; 0; 2; 0] [1; 2; 5; 3] /\
  match ex_fwd, ex_bwd with
  | Ok y, Ok dx => this (inner y ex_dy) = this (inner ex_x dx) /\ tshape y = [1; 2; 3; 3] /\ tshape dx = [1; 2; 3; 2]
  | _, _ => False
  end.
Proof.
  split.
  - repeat split; try (cbn; lia); repeat constructor.
  - vm_compute. repeat split.
Qed.

Example C37_example_values :
  match ex_fwd, ex_bwd with
  | Ok y, Ok dx =>
      show y = ([1; 2; 3; 3], [1; 23 # 8; 4; 14 # 5; 187 # 40; 29 # 5; 4; 47 # 8; 7;
                               8; 79 # 8; 11; 49 # 5; 467 # 40; 64 # 5; 11; 103 # 8; 14]%Q) /\
      show dx = ([1; 2; 3; 2], [0; 0; 23 # 40; -19 # 8; 131 # 20; 17 # 4;
                                0; 0; 5 # 2; -1 # 10; 35 # 4; 137 # 20]%Q) /\
      this (inner y ex_dy) = (10323 # 40)%Q
  | _, _ => False
  end.
Proof. vm_compute. repeat split. Qed.

(** The adjoint of linear interpolation from 2 to 3 points, for two channels: two
    iterations of the parallel loop, executed alternately. *)
Definition ex_threads : list (list (@stmt Zring)) :=
  match threads exact (fun a : Qc => Qcfloor (a + a)%Qc : Zring) (Linear None true) true [1; 2; 2]
          (kernel_dim [1; 2; 2] [0; 0; 0] [1; 2; 2] [1; 2; 3] [0; 0; 0] [1; 2; 3]) with
  | Some ts => ts
  | None => []
  end.
Fixpoint alternate {A} (a b : list A) : list A :=
  match a, b with x :: a', y :: b' => x :: y :: alternate a' b' | _, _ => [] end.
Definition ex_order := alternate (nth 0 ex_threads []) (nth 1 ex_threads []).

Lemma alternate_interleaving {A} (a b : list A) : length a = length b -> interleaving [a; b] (alternate a b).
Proof.
  revert b. induction a as [|x a IH]; intros [|y b] E; try discriminate.
  - constructor. repeat constructor.
  - cbn [alternate]. apply (il_step [] a [y :: b] x). cbn [app]. apply (il_step [a] b [] y). cbn [app]. auto.
Qed.

Example C47_example :
  interleaving ex_threads ex_order /\ map st_to ex_order <> map st_to (concat ex_threads) /\
  length ex_order = 12%nat /\
  map (run ex_order (fun a => 1 + a * a) (fun _ => 0)) (zrange 4) = [4; 12; 37; 69] /\
  map (run (concat ex_threads) (fun a => 1 + a * a) (fun _ => 0)) (zrange 4) = [4; 12; 37; 69].
Proof.
  split; [|split; [|split; [|split]]]; [|vm_compute; discriminate|reflexivity|reflexivity|reflexivity].
  exact (alternate_interleaving (nth 0 ex_threads []) (nth 1 ex_threads []) eq_refl).
Qed.

Print Assumptions C37_interpolation_adjoint.
Print Assumptions C47_interpolation_parallel.
