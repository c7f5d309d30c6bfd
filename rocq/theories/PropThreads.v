(** The interpolation kernels on any number of threads and for any memory layout of
    their input, and when they divide by zero (C68). *)

From Coq Require Import QArith Qcanon.
From Verif Require Import Prelude SpecIndex SpecLayout SpecPartition ModelSlicing ProofSlicing ModelDecomposition ProofDecomposition
  PropDecomposition ModelPartition ProofPartition Ring Tensor Blocks ModelHaloMixin ModelRepartition PropRepartition
  PropBatchNorm ModelScalars ModelInterpolate ProofInterpolate PropInterpolate ModelUpsample ProofUpsampleLayer ModelThreads.
Local Open Scope Z_scope.

(** * C68 *)

(** Consecutive ranges from [b] to [e]. *)
Fixpoint consecutive (b e : Z) (ranges : list (Z * Z)) : Prop :=
  match ranges with
  | [] => b = e
  | (b', e') :: rest => b' = b /\ b' < e' /\ consecutive e' e rest
  end.

(** The ranges of [at::parallel_for] are consecutive, and there are at most as many as
    threads. *)
Definition C68_ranges_statement : Prop :=
  forall team busy n grain, 1 <= team -> 0 <= n -> 0 <= grain ->
    let ranges := parallel_for team busy n grain in
    consecutive 0 n ranges /\ Z.of_nat (length ranges) <= team /\
    (busy = true \/ n <= grain -> 0 < n -> ranges = [(0, n)]).

(** Whatever the number of threads, and however the statements of the threads are
    interleaved, the kernels return the tensor of the model that executes one
    iteration after the other; the input may have any strides. *)
Definition C68_threads_statement : Prop :=
  forall (R : CRing) (A : scalars) (weight : scalar A -> R) (mode : imode A) team busy
    nb nc xs ys x_start x_stop x_global y_start y_stop y_global (x dy : strided R),
    1 <= team ->
    local_shapes nb nc xs ys x_start x_stop y_start y_stop ->
    sd_sizes x = nb :: nc :: xs -> length (sd_strides x) = length (sd_sizes x) ->
    sd_sizes dy = nb :: nc :: ys -> length (sd_strides dy) = length (sd_sizes dy) ->
    (exists ts y,
       forward_call A weight mode team busy x_start x_global y_start y_stop y_global x = Running ts /\
       Z.of_nat (length ts) <= team /\
       interpolate_forward A weight mode x_start x_global y_start y_stop y_global (seen x) = Ok y /\
       forall order, interleaving ts order -> teq (returned (map2 Z.sub y_stop y_start) order x) y) /\
    (exists ts dx,
       backward_call A weight mode team busy x_start x_stop x_global y_start y_global dy = Running ts /\
       Z.of_nat (length ts) <= team /\
       interpolate_backward A weight mode x_start x_stop x_global y_start y_global (seen dy) = Ok dx /\
       forall order, interleaving ts order -> teq (returned (map2 Z.sub x_stop x_start) order dy) dx).

(** A kernel divides by zero exactly for an empty output in the linear mode. *)
Definition C68_division_statement : Prop :=
  forall (R : CRing) (A : scalars) (weight : scalar A -> R) (mode : imode A) team busy adjoint input_sizes output_sizes dim,
    (3 <= length input_sizes <= 5)%nat -> length output_sizes = length input_sizes ->
    let call := kernel_call A weight mode team busy adjoint input_sizes output_sizes dim in
    let divides_by_zero := mode <> Nearest /\ exists j, (2 <= j < length output_sizes)%nat /\ nth j output_sizes 0 = 0 in
    (divides_by_zero -> call = Crashed) /\ (~ divides_by_zero -> exists ts, call = Running ts).

(** In the layer: exactly the workers do that would have no outputs. *)
Definition C68_layer_statement : Prop :=
  forall (R : CRing) (T : float_types) (weight : scalar (f_kernel T) -> R) (P : part) (a : upsample_args T) (X Y : list Z)
    (shape : Z -> list Z) team busy (needed : usetup -> strided R),
    part_ok P -> length X = length (p_shape P) -> (3 <= length X <= 5)%nat -> nonneg_shape X -> nonneg_shape Y ->
    upsample_output_shape a X = Ok Y ->
    (forall idx v, worker_at P idx v -> shape v = block_shape (balanced X (p_shape P)) idx) ->
    (forall u, length (sd_sizes (needed u)) = length X) ->
    (forall idx v, worker_at P idx v ->
       let too_few := u_align a <> None /\ exists j, (2 <= j < length X)%nat /\ nth j Y 0 <= nth j idx 0 in
       (too_few -> upsample_call T weight P a shape team busy v needed = Ok (Some Crashed)) /\
       (~ too_few -> exists ts, upsample_call T weight P a shape team busy v needed = Ok (Some (Running ts)))) /\
    ((exists idx v, worker_at P idx v /\ upsample_call T weight P a shape team busy v needed = Ok (Some Crashed)) <->
     u_align a <> None /\ exists j, (2 <= j < length X)%nat /\ nth j Y 0 < nth j (p_shape P) 0).

(** * Ranges *)

Lemma divup_spec x y : 0 < x -> 0 < y -> 1 <= divup x y /\ x <= divup x y * y.
Proof.
  intros Hx Hy. unfold divup. rewrite Z.quot_div_nonneg by lia.
  pose proof (Z.div_mod (x + y - 1) y). pose proof (Z.mod_pos_bound (x + y - 1) y). nia.
Qed.

Lemma consecutive_app b m e r s : consecutive b m r -> consecutive m e s -> consecutive b e (r ++ s).
Proof.
  revert b. induction r as [|[b' e'] r IH]; intros b; cbn [app consecutive].
  - now intros ->.
  - intros (-> & H & C) C'. auto.
Qed.

Lemma chunks_consecutive n chunk m : 0 <= n -> 0 < chunk ->
  consecutive 0 (Z.min n (Z.of_nat m * chunk))
    (flat_map (fun tid => let b := tid * chunk in if b <? n then [(b, Z.min n (chunk + b))] else []) (zrange (Z.of_nat m))).
Proof.
  intros Hn Hc. induction m as [|m IH].
  - cbn. lia.
  - rewrite Nat2Z.inj_succ, <- Z.add_1_r, zrange_succ, flat_map_app by lia. eapply consecutive_app; [exact IH|].
    cbn [flat_map]. destruct (Z.ltb_spec (Z.of_nat m * chunk) n); cbn [app consecutive]; nia.
Qed.

Lemma flat_map_short {A B} (f : A -> list B) l : (forall a, (length (f a) <= 1)%nat) -> (length (flat_map f l) <= length l)%nat.
Proof. intros H. induction l as [|a l IH]; cbn [flat_map length]; auto. rewrite app_length. specialize (H a). lia. Qed.

Lemma C68_ranges_proof : C68_ranges_statement.
Proof.
  intros team busy n grain Ht Hn Hg ranges. unfold ranges, parallel_for. destruct (Z.leb_spec n 0).
  - cbn. repeat split; lia.
  - set (team' := if negb busy && (grain <? n) then team else 1).
    assert (H1 : 1 <= team' <= team) by (unfold team'; destruct (negb busy && (grain <? n)); lia).
    set (k := if 0 <? grain then Z.min team' (divup n grain) else team').
    assert (Hk : 1 <= k <= team').
    { unfold k. destruct (Z.ltb_spec 0 grain); [|lia]. pose proof (divup_spec n grain). lia. }
    destruct (divup_spec n k) as [Hc Hd]; try lia. set (chunk := divup n k) in *.
    pose proof (chunks_consecutive n chunk (Z.to_nat team') ltac:(lia) ltac:(lia)) as C. rewrite Z2Nat.id in C by lia.
    rewrite Z.min_l in C by nia. split; [exact C|]. split.
    + match goal with |- context [flat_map ?f ?l] => pose proof (flat_map_short f l) as F end.
      rewrite zrange_length in F. specialize (F ltac:(intros i; cbv zeta; destruct (i * chunk <? n); cbn; lia)). lia.
    + intros HB _. assert (E1 : team' = 1).
      { unfold team'. destruct HB as [-> | HB]; auto. destruct (Z.ltb_spec grain n); [lia|]. now rewrite andb_false_r. }
      rewrite E1 in *. assert (k = 1) by lia. change (zrange 1) with [0]. cbn [flat_map app]. rewrite Z.mul_0_l.
      destruct (Z.ltb_spec 0 n); [|lia]. rewrite Z.add_0_r. rewrite Z.min_l by nia. reflexivity.
Qed.

Theorem C68_ranges : C68_ranges_statement.
Proof. exact C68_ranges_proof. Qed.

Lemma firstn_split {A} p q (l : list A) : firstn (p + q) l = firstn p l ++ firstn q (skipn p l).
Proof. revert l. induction p as [|p IH]; intros [|a l]; cbn; auto; [now rewrite firstn_nil|now rewrite IH]. Qed.

Lemma skipn_add {A} p q (l : list A) : skipn p (skipn q l) = skipn (p + q) l.
Proof. revert l. induction q as [|q IH]; intros l; [now rewrite Nat.add_0_r|]. rewrite Nat.add_succ_r. destruct l; [now rewrite !skipn_nil|]. apply IH. Qed.

Lemma consecutive_slices {A} (l : list A) : forall r b e, 0 <= b -> consecutive b e r ->
  b <= e /\ concat (map (fun r => firstn (Z.to_nat (snd r - fst r)) (skipn (Z.to_nat (fst r)) l)) r) =
  firstn (Z.to_nat (e - b)) (skipn (Z.to_nat b) l).
Proof.
  induction r as [|[b' e'] r IH]; intros b e Hb; cbn [consecutive map concat fst snd].
  - intros ->. split; [lia|]. now rewrite Z.sub_diag.
  - intros (-> & H & C). destruct (IH e' e ltac:(lia) C) as [Hle ->]. split; [lia|].
    replace (Z.to_nat (e - b)) with (Z.to_nat (e' - b) + Z.to_nat (e - e'))%nat by lia.
    replace (Z.to_nat e') with (Z.to_nat (e' - b) + Z.to_nat b)%nat by lia.
    now rewrite <- skipn_add, <- firstn_split.
Qed.

(** * Threads *)

Lemma concat_cons {A} (gs : list (list A)) a t : concat gs = a :: t ->
  exists before t' after, gs = before ++ (a :: t') :: after /\ concat (before ++ t' :: after) = t.
Proof.
  induction gs as [|g gs IH]; [discriminate|]. destruct g as [|b g]; cbn [concat app].
  - intros E. destruct (IH E) as (before & t' & after & -> & E'). exists ([] :: before), t', after. now split.
  - intros [= -> <-]. exists [], g, gs. now split.
Qed.

(** Threads that execute several iterations each. *)
Lemma interleaving_grouped {A} (gs : list (list (list A))) l : interleaving (map (@concat A) gs) l -> interleaving (concat gs) l.
Proof.
  intros H. remember (map (@concat A) gs) as ts eqn:E. revert gs E. induction H as [ts HF|before t after a l H IH]; intros gs E; subst.
  - apply il_done. apply Forall_forall. intros t Ht. apply in_concat in Ht as (g & Hg & Ht). rewrite Forall_forall in HF.
    specialize (HF (concat g) (in_map _ _ _ Hg)). destruct t as [|a t]; auto. apply in_split in Ht as (u & w & ->).
    rewrite concat_app in HF. cbn in HF. now apply app_eq_nil in HF as [_ HF].
  - symmetry in E. apply map_eq_app in E as (g1 & g2 & -> & <- & E). destruct g2 as [|g g2]; [discriminate|]. injection E as Eg <-.
    apply concat_cons in Eg as (b & t' & c & -> & <-).
    specialize (IH (g1 ++ (b ++ t' :: c) :: g2)). rewrite map_app in IH. cbn [map] in IH. specialize (IH eq_refl).
    rewrite !concat_app in *. cbn [concat] in *. rewrite <- !app_assoc in *. cbn [app] in *.
    rewrite app_assoc in *. now apply il_step.
Qed.

Section Run.
  Context {R : CRing}.

  Lemma run_source (prog : list (@stmt R)) (p : Z -> Prop) src src' : (forall a, p a -> src a = src' a) ->
    forall dst, Forall (fun s => p (st_from s)) prog -> run prog src dst = run prog src' dst.
  Proof.
    intros HS. unfold run. induction prog as [|s prog IH]; intros dst HF; auto. inversion HF as [|? ? Hs HF']; subst. cbn [fold_left].
    unfold exec at 2 4. unfold st_value. rewrite (HS _ Hs). apply IH. auto.
  Qed.

  (** ** Memory layout *)

  Lemma dense_spec sizes : forall strides idx, length strides = length sizes -> valid_index sizes idx ->
    fst (dense sizes strides) = true ->
    snd (dense sizes strides) = zprod sizes /\ zsum (map2 Z.mul strides idx) = row_major sizes idx.
  Proof.
    induction sizes as [|n sizes IH]; intros [|s strides] [|i idx]; cbn [length]; try discriminate; intros HL HV; try (now inversion HV).
    - inversion HV as [|? ? ? ? Hi HV']; subst. unfold dense. cbn [combine fold_right fst snd]. fold (dense sizes strides).
      injection HL as HL. specialize (IH strides idx HL HV'). unfold zprod, zsum in *. cbn [map2 fold_right row_major].
      destruct (Z.eqb_spec n 1) as [->|Hn]; intros H.
      + destruct (IH H) as [-> ->]. assert (i = 0) as -> by lia. lia.
      + cbn [fst snd] in *. apply andb_true_iff in H as [H E]. destruct (IH H) as [E1 ->]. apply Z.eqb_eq in E.
        rewrite E1 in *. subst s. unfold zprod. lia.
  Qed.

  Lemma data_ptr_spec (t : strided R) a : length (sd_strides t) = length (sd_sizes t) -> pos_shape (sd_sizes t) ->
    0 <= a < zprod (sd_sizes t) -> data_ptr t a = memory (seen t) a.
  Proof.
    intros HL HP Ha. unfold data_ptr, memory, seen. cbn [tat tshape]. destruct (is_contiguous t) eqn:E; auto.
    unfold is_contiguous in E. apply orb_true_iff in E as [E|E].
    - exfalso. apply existsb_exists in E as (z & Hz & E). apply Z.eqb_eq in E. unfold pos_shape in HP. rewrite Forall_forall in HP.
      specialize (HP z Hz). lia.
    - destruct (cart_coords_spec (sd_sizes t) a HP Ha) as [HV ER]. unfold element.
      destruct (dense_spec _ _ _ HL HV E) as [_ ->]. now rewrite ER.
  Qed.
End Run.

Lemma slice_size ys : fold_right (fun y z => z * y) 1 ys = zprod ys.
Proof. unfold zprod. induction ys as [|y ys IH]; cbn [fold_right]; auto. rewrite IH. lia. Qed.

Lemma zprod_zero ys : zprod ys = 0 <-> In 0 ys.
Proof. unfold zprod. induction ys as [|y ys IH]; cbn [fold_right In]; [lia|]. rewrite Z.mul_eq_0, IH. intuition. Qed.

Lemma grain_size_spec {A : scalars} (mode : imode A) ys : pos_shape ys -> exists g, grain_size mode ys = Some g /\ 0 <= g.
Proof.
  intros H. unfold grain_size. destruct mode; [exists GRAIN_SIZE; split; auto; unfold GRAIN_SIZE; lia|].
  rewrite slice_size. assert (0 < zprod ys) by (clear -H; induction H; unfold zprod in *; cbn [fold_right]; nia).
  destruct (Z.eqb_spec (zprod ys) 0); [lia|]. eexists. split; [reflexivity|].
  assert (0 < 2 ^ Z.of_nat (length ys)) by (apply Z.pow_pos_nonneg; lia).
  apply Z.quot_pos; auto. apply Z.quot_pos; unfold GRAIN_SIZE; lia.
Qed.

Section Kernel.
  Context {R : CRing}.
  Variables (A : scalars) (weight : scalar A -> R) (mode : imode A) (team : Z) (busy adjoint : bool).
  Variables (nb nc : Z) (xs ys x_start x_global y_start y_global : list Z).
  Hypothesis Ht : 1 <= team.
  Hypothesis HL : (1 <= length xs <= 3)%nat.
  Hypothesis HY : length ys = length xs.
  Hypothesis PX : pos_shape (nb :: nc :: xs).
  Hypothesis PY : pos_shape (nb :: nc :: ys).
  Let dim := kernel_dim (nb :: nc :: xs) x_start x_global (nb :: nc :: ys) y_start y_global.

  Lemma kernel_threads : exists iterations ts,
    threads A weight mode adjoint (nb :: nc :: xs) dim = Some iterations /\
    kernel_call A weight mode team busy adjoint (nb :: nc :: xs) (nb :: nc :: ys) dim = Running ts /\
    Z.of_nat (length ts) <= team /\
    forall (input : strided R) order a,
      sd_sizes input = (if adjoint then nb :: nc :: ys else nb :: nc :: xs) -> length (sd_strides input) = length (sd_sizes input) ->
      interleaving ts order ->
      run order (data_ptr input) (fun _ => rzero) a = run (concat iterations) (memory (seen input)) (fun _ => rzero) a.
  Proof.
    destruct (C47_proof R A weight mode adjoint nb nc xs ys x_start x_global y_start y_global HL HY PX PY) as (its & E & HI & HO).
    fold dim in E. unfold kernel_call. rewrite E. cbn [skipn nth].
    destruct (grain_size_spec mode ys) as (g & Eg & Hg); [now apply Forall_inv_tail, Forall_inv_tail in PY|]. rewrite Eg.
    assert (Hn : 0 < nb * nc) by (inversion PX as [|? ? ? H']; inversion H'; subst; nia).
    destruct (C68_ranges_proof team busy (nb * nc) g Ht ltac:(lia) Hg) as (HC & Hlen & _).
    assert (EL : length its = Z.to_nat (nb * nc)).
    { rewrite threads_groups in E by (cbn [length]; lia). injection E as <-. rewrite map_length, zrange_length. reflexivity. }
    eexists. eexists. split; [reflexivity|]. split; [reflexivity|]. split; [now rewrite map_length|].
    intros input order a ES EST Hord.
    rewrite <- (map_map _ (@concat stmt)) in Hord. apply interleaving_grouped in Hord.
    destruct (consecutive_slices its _ 0 (nb * nc) ltac:(lia) HC) as [_ EC]. rewrite EC in Hord.
    rewrite Z.sub_0_r, <- EL in Hord. cbn [Z.to_nat skipn] in Hord. rewrite firstn_all in Hord.
    rewrite (HO order _ _ Hord). apply (f_equal (fun m => m a)).
    apply run_source with (p := fun z => 0 <= z < zprod (sd_sizes input)).
    - intros z Hz. apply data_ptr_spec; auto. rewrite ES. now destruct adjoint.
    - rewrite ES. eapply Forall_impl; [|exact HI]. intros s. destruct adjoint; now intros [? _].
  Qed.
End Kernel.

Lemma C68_threads_proof : C68_threads_statement.
Proof.
  intros R A weight mode team busy nb nc xs ys x_start x_stop x_global y_start y_stop y_global x dy Ht
    (HL & HY & PX & PY & EX & EY) Sx Lx Sy Ly. split.
  - unfold forward_call, interpolate_forward. cbn [seen tshape]. rewrite Sx, EY.
    destruct (kernel_threads A weight mode team busy false nb nc xs ys x_start x_global y_start y_global Ht HL HY PX PY)
      as (its & ts & E & -> & Hlen & HO).
    rewrite E. exists ts. eexists. split; [reflexivity|]. split; [exact Hlen|]. split; [reflexivity|].
    intros order Hord. split; [reflexivity|]. intros i _. unfold returned, of_memory. cbn [tat]. now apply HO.
  - unfold backward_call, interpolate_backward. cbn [seen tshape]. rewrite Sy, EX.
    destruct (kernel_threads A weight mode team busy true nb nc xs ys x_start x_global y_start y_global Ht HL HY PX PY)
      as (its & ts & E & -> & Hlen & HO).
    rewrite E. exists ts. eexists. split; [reflexivity|]. split; [exact Hlen|]. split; [reflexivity|].
    intros order Hord. split; [reflexivity|]. intros i _. unfold returned, of_memory. cbn [tat]. now apply HO.
Qed.

Theorem C68_threads : C68_threads_statement.
Proof. exact C68_threads_proof. Qed.

(** * Division by zero *)

Lemma features_zero (l : list Z) : In 0 (skipn 2 l) <-> exists j, (2 <= j < length l)%nat /\ nth j l 0 = 0.
Proof.
  split.
  - intros H. apply (In_nth _ _ 0) in H as (k & Hk & E). exists (2 + k)%nat. rewrite skipn_length in Hk. split; [lia|].
    destruct l as [|a [|b l]]; cbn [skipn length] in *; try lia. exact E.
  - intros (j & Hj & E). destruct l as [|a [|b l]]; cbn [length] in Hj; try lia. destruct j as [|[|j]]; try lia.
    cbn [skipn nth] in *. rewrite <- E. apply nth_In. lia.
Qed.

Lemma C68_division_proof : C68_division_statement.
Proof.
  intros R A weight mode team busy adjoint input_sizes output_sizes dim HL HO call D. unfold call, kernel_call.
  rewrite threads_groups by auto. unfold D. rewrite <- features_zero, <- zprod_zero. unfold grain_size. destruct mode as [|s c].
  - split; [intros [H _]; congruence|]. intros _. eexists. reflexivity.
  - rewrite slice_size. destruct (Z.eqb_spec (zprod (skipn 2 output_sizes)) 0); split.
    + reflexivity.
    + intros H. destruct H. split; [discriminate|auto].
    + tauto.
    + intros _. eexists. reflexivity.
Qed.

Theorem C68_division : C68_division_statement.
Proof. exact C68_division_proof. Qed.

(** A block of the balanced decomposition is empty when there are too few elements. *)
Lemma subshape1_zero p i n : 0 <= i < p -> 0 <= n -> subshape1 p i n = 0 <-> n <= i.
Proof.
  intros Hi Hn. unfold subshape1. pose proof (Z.div_mod n p ltac:(lia)) as E. pose proof (Z.mod_pos_bound n p ltac:(lia)).
  pose proof (Z.div_pos n p Hn ltac:(lia)). destruct (Z.ltb_spec i (n mod p)); nia.
Qed.

Lemma kernel_mode_nearest {T} (a : upsample_args T) : kernel_mode a <> Nearest <-> u_align a <> None.
Proof. unfold kernel_mode. destruct (u_align a); split; congruence. Qed.

Section Layer.
  Context {R : CRing}.
  Variables (T : float_types) (weight : scalar (f_kernel T) -> R) (P : part) (a : upsample_args T) (X Y : list Z).
  Variables (shape : Z -> list Z) (team : Z) (busy : bool) (needed : usetup -> strided R).
  Hypothesis HP : part_ok P.
  Hypothesis HLen : length X = length (p_shape P).
  Hypothesis HD : (3 <= length X <= 5)%nat.
  Hypothesis HX : nonneg_shape X.
  Hypothesis HY : nonneg_shape Y.
  Hypothesis HOut : upsample_output_shape a X = Ok Y.
  Hypothesis HS : forall idx v, worker_at P idx v -> shape v = block_shape (balanced X (p_shape P)) idx.
  Hypothesis HNd : forall u, length (sd_sizes (needed u)) = length X.

  Lemma layer_worker idx v : worker_at P idx v ->
    let too_few := u_align a <> None /\ exists j, (2 <= j < length X)%nat /\ nth j Y 0 <= nth j idx 0 in
    (too_few -> upsample_call T weight P a shape team busy v needed = Ok (Some Crashed)) /\
    (~ too_few -> exists ts, upsample_call T weight P a shape team busy v needed = Ok (Some (Running ts))).
  Proof.
    intros Hv too_few.
    destruct (setup_spec P a X Y HP HX HLen HOut HY shape HS idx v Hv) as (u & Eu & _ & _ & _ & E3 & E4 & _).
    unfold upsample_call. rewrite Eu. cbn [rbind option_map]. unfold forward_call.
    pose proof (out_length a X Y HOut) as LY. pose proof (proj1 Hv) as Hi. pose proof (valid_index_length _ _ Hi) as LI.
    destruct HP as (_ & _ & Hp & _).
    assert (L1 : length (v_y_start u) = length X /\ length (v_y_stop u) = length X).
    { rewrite E3, E4. unfold sub_start, sub_stop.
      destruct (proj1 C03_proof (p_shape P) Y idx Hp HY ltac:(lia) Hi) as (_ & -> & ->).
      rewrite <- balanced_block_lo, <- balanced_block_hi by (auto; lia).
      rewrite block_lo_length; unfold block_hi, balanced; rewrite ?map2_length; rewrite ?map2_length; lia. }
    match goal with |- context [kernel_call _ _ _ _ _ _ _ ?o ?d] =>
      pose proof (C68_division_proof R (f_kernel T) weight (kernel_mode a) team busy false (sd_sizes (needed u)) o d) as D end.
    cbv zeta in D. rewrite HNd, map2_length, (proj2 L1) in D by lia. specialize (D HD eq_refl).
    assert (EQ : (kernel_mode a <> Nearest /\ exists j, (2 <= j < length X)%nat /\ nth j (map2 Z.sub (v_y_stop u) (v_y_start u)) 0 = 0)
                 <-> too_few).
    { unfold too_few. rewrite kernel_mode_nearest. apply and_iff_compat_l.
      assert (F : forall j, (2 <= j < length X)%nat -> nth j (map2 Z.sub (v_y_stop u) (v_y_start u)) 0 = 0 <-> nth j Y 0 <= nth j idx 0).
      { intros j Hj. rewrite map2_nth with (da := 0) (db := 0) by lia. rewrite E3, E4, sub_start_nth, sub_stop_nth by (auto; lia).
        pose proof (proj2 (proj1 (valid_index_nth _ _) Hi) j ltac:(lia)).
        rewrite step by (auto; lia). rewrite <- subshape1_zero with (p := nth j (p_shape P) 0); [|lia|].
        - lia.
        - unfold nonneg_shape in HY. rewrite Forall_forall in HY. apply HY, nth_In. lia. }
      split; intros (j & Hj & E); exists j; split; auto; now apply F. }
    rewrite <- EQ. destruct D as [D1 D2]. split.
    - intros H. now rewrite D1.
    - intros H. destruct (D2 H) as [ts ->]. eauto.
  Qed.
End Layer.

Lemma few_dec (Y idx : list Z) n : (exists j, (2 <= j < n)%nat /\ nth j Y 0 <= nth j idx 0) \/
  ~ exists j, (2 <= j < n)%nat /\ nth j Y 0 <= nth j idx 0.
Proof.
  induction n as [|n [(j & Hj & H)|IH]].
  - right. intros (j & Hj & _). lia.
  - left. exists j. split; [lia|auto].
  - destruct (Nat.le_gt_cases 2 n); [|right; intros (j & Hj & _); lia].
    destruct (Z.le_gt_cases (nth n Y 0) (nth n idx 0)) as [H1|H1].
    + left. exists n. split; [lia|auto].
    + right. intros (j & Hj & H2). destruct (Nat.eq_dec j n) as [->|]; [lia|]. apply IH. exists j. split; [lia|auto].
Qed.

Lemma less_one (l : list Z) k : (k < length l)%nat -> nth k (map (fun p => p - 1) l) 0 = nth k l 0 - 1.
Proof. revert k. induction l as [|z l IH]; intros [|k]; cbn [length map nth]; try lia. intros H. apply IH. lia. Qed.

Lemma C68_layer_proof : C68_layer_statement.
Proof.
  intros R T weight P a X Y shape team busy needed HP HLen HD HX HY HOut HS HNd.
  pose proof (layer_worker T weight P a X Y shape team busy needed HP HLen HD HX HY HOut HS HNd) as W.
  split; [exact W|]. split.
  - intros (idx & v & Hv & E). destruct (W idx v Hv) as [_ W2]. rewrite E in W2.
    assert (ND : forall H, ~ H -> (~ H -> exists ts : list (list (@stmt R)), Ok (Some Crashed) = Ok (Some (Running ts))) -> False).
    { intros H H1 H2. destruct (H2 H1) as [ts H3]. discriminate. }
    destruct (u_align a) as [c|] eqn:EA; [|exfalso; eapply ND; [|exact W2]; intros [H _]; congruence].
    split; [discriminate|]. destruct (few_dec Y idx (length X)) as [(j & Hj & H)|H].
    + exists j. split; auto. pose proof (proj2 (proj1 (valid_index_nth _ _) (proj1 Hv)) j ltac:(lia)). lia.
    + exfalso. eapply ND; [|exact W2]. tauto.
  - intros (HA & j & Hj & H). pose proof HP as (_ & _ & Hp & _).
    set (idx := map (fun p => p - 1) (p_shape P)).
    assert (Hi : valid_index (p_shape P) idx).
    { apply valid_index_nth. unfold idx. rewrite map_length. split; auto. intros k Hk.
      rewrite less_one by auto.
      unfold pos_shape in Hp. rewrite Forall_forall in Hp. pose proof (Hp (nth k (p_shape P) 0) (nth_In _ _ Hk)). lia. }
    destruct (worker_exists P idx HP Hi) as [v Hv]. exists idx, v. split; auto.
    apply (W idx v Hv). split; auto. exists j. split; auto. unfold idx.
    rewrite less_one; lia.
Qed.

Theorem C68_layer : C68_layer_statement.
Proof. exact C68_layer_proof. Qed.

(** That no worker divides by zero in any layer that can be set up. *)
Definition C68_safe_statement : Prop :=
  forall (R : CRing) (T : float_types) (weight : scalar (f_kernel T) -> R) (P : part) (a : upsample_args T) (X Y : list Z)
    (shape : Z -> list Z) team busy (needed : usetup -> strided R),
    part_ok P -> length X = length (p_shape P) -> (3 <= length X <= 5)%nat -> pos_shape X -> pos_shape Y ->
    upsample_output_shape a X = Ok Y ->
    (forall idx v, worker_at P idx v -> shape v = block_shape (balanced X (p_shape P)) idx) ->
    (forall u, length (sd_sizes (needed u)) = length X) ->
    forall idx v, worker_at P idx v -> upsample_call T weight P a shape team busy v needed <> Ok (Some Crashed).

(** * Examples *)

(** 10 iterations, a grain size of 2: on four threads; on seven (five are used); in a
    parallel region. *)
Example C68_ranges_example :
  parallel_for 4 false 10 2 = [(0, 3); (3, 6); (6, 9); (9, 10)] /\
  parallel_for 7 false 10 2 = [(0, 2); (2, 4); (4, 6); (6, 8); (8, 10)] /\
  parallel_for 7 true 10 2 = [(0, 10)] /\ parallel_for 4 false 9 0 = [(0, 3); (3, 6); (6, 9)].
Proof. vm_compute. auto. Qed.

(** The input is the transpose of a contiguous tensor of two columns and three rows,
    from element 1 of its storage; linear interpolation to 75 x 60 elements, for three
    channels. *)
Definition ex_strided : strided Qring := @mkstrided Qring [1; 3; 3; 2] [18; 6; 1; 3] 1 (fun a => Qint (a * a)).
Definition ex_call team := forward_call exact (fun a : Qc => a : Qring) (Linear None false) team false
  [0; 0; 0; 0] [1; 3; 3; 2] [0; 0; 0; 0] [1; 3; 75; 60] [1; 3; 75; 60] ex_strided.

Example C68_threads_example :
  local_shapes 1 3 [3; 2] [75; 60] [0; 0; 0; 0] [1; 3; 3; 2] [0; 0; 0; 0] [1; 3; 75; 60] /\
  is_contiguous ex_strided = false /\
  map (fun a => this (data_ptr ex_strided a)) (zrange 8) = [1; 16; 4; 25; 9; 36; 49; 100]%Q /\
  match ex_call 2 with Running ts => map (fun t => Z.of_nat (length t)) ts = [36000; 18000] | _ => False end.
Proof.
  split; [repeat split; try (cbn; lia); repeat constructor|].
  split; [reflexivity|]. split; [vm_compute; reflexivity|]. vm_compute. reflexivity.
Qed.

(** Linear upsampling of 6 to 2 elements by three workers: the last one has no
    outputs.  All workers can set up the layer. *)
Definition ex_P : part := mkpart 0 [0; 1; 2] [1; 1; 3].
Definition ex_a : upsample_args exact_types := mkupsample_args exact_types (Some [1; 1; 2]) None (Some false).
Definition ex_shape (v : Z) : list Z := block_shape (balanced [1; 1; 6] [1; 1; 3]) [0; 0; v].
Definition ex_x (v : Z) : tensor Qring := @mkt Qring (ex_shape v) (fun i => Qint (1 + nth 2 i 0)).
(** The sizes of the slice of upsampling.py:282. *)
Definition ex_needed (v : Z) (u : usetup) : strided Qring :=
  @mkstrided Qring (tshape (upsample_needed u (upsample_argument exact_types ex_P ex_a ex_shape ex_x v))) [2; 2; 1] 0 (fun _ => Qint 1).

Example C68_layer_example :
  map (fun v => match upsample_setup exact_types ex_P ex_a ex_shape v with
                | Ok (Some u) => Some (e_recv (v_info u), e_send (v_info u), sd_sizes (ex_needed v u), map2 Z.sub (v_y_stop u) (v_y_start u))
                | _ => None
                end) [0; 1; 2] =
    [Some ([(0, 0); (0, 0); (0, 1)], [(0, 0); (0, 0); (0, 0)], [1; 1; 2], [1; 1; 1]);
     Some ([(0, 0); (0, 0); (0, 2)], [(0, 0); (0, 0); (1, 0)], [1; 1; 2], [1; 1; 1]);
     Some ([(0, 0); (0, 0); (0, 0)], [(0, 0); (0, 0); (2, 0)], [1; 1; 0], [1; 1; 0])] /\
  map (fun v => match upsample_call exact_types (fun w : Qc => w : Qring) ex_P ex_a ex_shape 4 false v (ex_needed v) with
                | Ok (Some (Running ts)) => Some (map (@length _) ts)
                | _ => None
                end) [0; 1] = [Some [2%nat]; Some [2%nat]] /\
  upsample_call exact_types (fun w : Qc => w : Qring) ex_P ex_a ex_shape 4 false 2 (ex_needed 2) = Ok (Some Crashed).
Proof. vm_compute. auto. Qed.

Theorem C68_safe_refuted : ~ C68_safe_statement.
Proof.
  intros H.
  refine (H Qring exact_types (fun w : Qc => w : Qring) ex_P ex_a [1; 1; 6] [1; 1; 2] ex_shape 4 false
            (fun _ => @mkstrided Qring [1; 1; 0] [2; 2; 1] 0 (fun _ => Qint 1)) _ _ _ _ _ _ _ _ [0; 0; 2] 2 _ _).
  - repeat split; try discriminate; repeat constructor; cbn; intuition discriminate.
  - reflexivity.
  - cbn. lia.
  - repeat constructor.
  - repeat constructor.
  - reflexivity.
  - intros idx v Hv. unfold ex_shape. do 2 f_equal. destruct Hv as [Hi E].
    apply valid_index_cons_inv in Hi as (i & t & -> & H1 & Hi). apply valid_index_cons_inv in Hi as (j & t' & -> & H2 & Hi).
    apply valid_index_cons_inv in Hi as (k & t'' & -> & H3 & Hi). inversion Hi; subst. assert (i = 0) by lia. assert (j = 0) by lia. subst.
    assert (k = 0 \/ k = 1 \/ k = 2) as [-> |[-> | ->]] by lia; vm_compute in E; congruence.
  - reflexivity.
  - split; [repeat constructor; lia|reflexivity].
  - vm_compute. reflexivity.
Qed.

Print Assumptions C68_ranges.
Print Assumptions C68_threads.
Print Assumptions C68_division.
Print Assumptions C68_layer.
Print Assumptions C68_safe_refuted.
