(** Proofs about upsampling layers: one dimension, in exact arithmetic. *)

From Coq Require Import QArith Qcanon Qround Qabs Lqa.
From Verif Require Import Prelude Ring ModelInterpolate ModelScalars ModelUpsample SpecInterpolate.
Local Open Scope Z_scope.

(** * Rational numbers *)

Lemma Qc_eq (a b : Qc) : (this a == this b)%Q -> a = b.
Proof. apply Qc_is_canon. Qed.

Lemma this_Q2Qc q : (this (Q2Qc q) == q)%Q.
Proof. apply Qred_correct. Qed.

Lemma this_plus a b : (this (a + b)%Qc == this a + this b)%Q.
Proof. apply this_Q2Qc. Qed.
Lemma this_mult a b : (this (a * b)%Qc == this a * this b)%Q.
Proof. apply this_Q2Qc. Qed.
Lemma this_opp a : (this (- a)%Qc == - this a)%Q.
Proof. apply this_Q2Qc. Qed.
Lemma this_minus a b : (this (a - b)%Qc == this a - this b)%Q.
Proof. unfold Qcminus. now rewrite this_plus, this_opp. Qed.
Lemma this_int z : (this (Qint z) == inject_Z z)%Q.
Proof. apply this_Q2Qc. Qed.

Lemma Qint_add a b : Qint (a + b) = (Qint a + Qint b)%Qc.
Proof. apply Qc_eq. now rewrite this_plus, !this_int, inject_Z_plus. Qed.
Lemma Qint_sub a b : Qint (a - b) = (Qint a - Qint b)%Qc.
Proof. apply Qc_eq. rewrite this_minus, !this_int. unfold Z.sub. now rewrite inject_Z_plus, inject_Z_opp. Qed.
Lemma Qint_mul a b : Qint (a * b) = (Qint a * Qint b)%Qc.
Proof. apply Qc_eq. now rewrite this_mult, !this_int, inject_Z_mult. Qed.
Lemma Qint_neq a : a <> 0 -> Qint a <> 0%Qc.
Proof.
  intros H E. apply H. assert (E' : (this (Qint a) == this 0%Qc)%Q) by now rewrite E.
  rewrite this_int in E'. unfold inject_Z, Qeq in E'. cbn in E'. lia.
Qed.
Lemma Qint_0 : Qint 0 = 0%Qc. Proof. now apply Qc_eq. Qed.
Lemma Qint_1 : Qint 1 = 1%Qc. Proof. now apply Qc_eq. Qed.
Lemma Qhalf_2 : (Qint 2 * Qhalf = 1)%Qc. Proof. now apply Qc_eq. Qed.

Definition frac (n d : Z) : Qc := (Qint n / Qint d)%Qc.

Lemma frac_mul n d : d <> 0 -> (frac n d * Qint d)%Qc = Qint n.
Proof. intros H. unfold frac. apply Qint_neq in H. now field. Qed.

Lemma this_frac n d : 0 < d -> (this (frac n d) == n # Z.to_pos d)%Q.
Proof.
  intros H. assert (E : (this (frac n d) * inject_Z d == inject_Z n)%Q).
  { rewrite <- (this_int d), <- this_mult, frac_mul by lia. apply this_int. }
  destruct d as [|p|p]; try lia. cbn [Z.to_pos].
  assert (Hp : ~ (inject_Z (Z.pos p) == 0)%Q) by (unfold inject_Z, Qeq; cbn; lia).
  rewrite <- (Qdiv_mult_l (this (frac n (Z.pos p))) (inject_Z (Z.pos p)) Hp), E.
  unfold Qdiv, Qinv, inject_Z, Qeq, Qmult. cbn. lia.
Qed.

Lemma floor_frac n d : 0 < d -> Qcfloor (frac n d) = n / d.
Proof.
  intros H. unfold Qcfloor. rewrite (Qfloor_comp _ _ (this_frac n d H)). cbn [Qfloor]. now rewrite Z2Pos.id.
Qed.

Lemma negative_frac n d : 0 < d -> Qcnegative (frac n d) = (n <? 0).
Proof.
  intros H. pose proof (this_frac n d H) as E. unfold Qcnegative.
  destruct (Qle_bool 0 (this (frac n d))) eqn:B; cbn [negb]; symmetry.
  - apply Qle_bool_iff in B. rewrite E in B. unfold Qle in B. cbn in B. apply Z.ltb_ge. lia.
  - apply Z.ltb_lt. destruct (Z.lt_ge_cases n 0) as [|G]; auto. exfalso.
    assert (B' : (0 <= this (frac n d))%Q) by (rewrite E; unfold Qle; cbn; lia).
    apply Qle_bool_iff in B'. congruence.
Qed.

Lemma frac_sub n d z : d <> 0 -> (frac n d - Qint z)%Qc = frac (n - z * d) d.
Proof. intros H. unfold frac. rewrite Qint_sub, Qint_mul. apply Qint_neq in H. field. auto. Qed.

Lemma frac_negative_dec n d : 0 < d -> {Hn : n < 0 & (frac n d < 0)%Qc} + {Hn : 0 <= n & (0 <= frac n d)%Qc}.
Proof.
  intros H. pose proof (this_frac n d H) as E. destruct (Z_lt_le_dec n 0); [left|right]; exists l.
  - unfold Qclt. rewrite E. unfold Qlt. cbn. lia.
  - unfold Qcle. rewrite E. unfold Qle. cbn. lia.
Qed.

(** * Modes *)

Definition method_of (m : imode exact) : method :=
  match m with
  | Nearest => Constant
  | Linear _ true => Aligned
  | Linear s false => Centred s
  end.

(** The position of output [y] is (rise * y + offset) / denom. *)
Definition rise (m : method) (nx ny : Z) : Z :=
  match m with
  | Constant => nx
  | Aligned => nx - 1
  | Centred None => 2 * nx
  | Centred (Some s) => 2 * Z.pos (Qden (this s))
  end.
Definition offset (m : method) (nx ny : Z) : Z :=
  match m with
  | Constant | Aligned => 0
  | Centred None => nx - ny
  | Centred (Some s) => Z.pos (Qden (this s)) - Qnum (this s)
  end.
Definition denom (m : method) (nx ny : Z) : Z :=
  match m with
  | Constant => ny
  | Aligned => ny - 1
  | Centred None => 2 * ny
  | Centred (Some s) => 2 * Qnum (this s)
  end.

Definition line_at (m : method) (nx ny y : Z) : Z := rise m nx ny * y + offset m nx ny.

Lemma scale_frac (s : Qc) : s = frac (Qnum (this s)) (Z.pos (Qden (this s))).
Proof. apply Qc_eq. rewrite this_frac by lia. cbn [Z.to_pos]. now destruct (this s). Qed.

Section OneDim.
  Variables (m : method) (nx ny : Z).
  Hypothesis Hm : sensible m nx ny.

  Let al := rise m nx ny.
  Let be := offset m nx ny.
  Let de := denom m nx ny.
  Let num := line_at m nx ny.

  Lemma scale_pos s : m = Centred (Some s) -> 0 < Qnum (this s) /\ ny * Z.pos (Qden (this s)) <= Qnum (this s) * nx.
  Proof.
    intros E. destruct Hm as (H1 & H2 & H3). rewrite E in H3. destruct H3 as [H3 H4]. split.
    - unfold Qclt, Qlt in H3. cbn in H3. lia.
    - unfold Qcle in H4. change of_Z with Qint in H4. rewrite this_mult, !this_int in H4. 
      unfold Qle, Qmult, inject_Z in H4. cbn [Qnum Qden] in H4. nia.
  Qed.

  Lemma de_pos : 0 < de.
  Proof.
    unfold de, denom. pose proof scale_pos as S. destruct Hm as (H1 & H2 & H3). destruct m as [| |[s|]]; [lia|lia|destruct (S s eq_refl); lia|lia].
  Qed.

  Lemma al_nonneg : 0 <= al.
  Proof. unfold al, rise. destruct Hm as (H1 & H2 & H3). destruct m as [| |[s|]]; lia. Qed.

  (** The last output lies before the end of the last input. *)
  Lemma last_inside : num (ny - 1) < de * nx.
  Proof.
    unfold num, line_at, al, be, de, rise, offset, denom. pose proof scale_pos as S. destruct Hm as (H1 & H2 & H3). destruct m as [| |[s|]]; [nia|nia|destruct (S s eq_refl); nia|nia].
  Qed.

  Lemma position_frac y : position m nx ny y = frac (num y) de.
  Proof.
    pose proof de_pos as D. unfold de in *. unfold position, num, line_at, al, be, denom, rise, offset in *.
    change of_Z with Qint. change (Q2Qc (1 # 2)) with Qhalf. pose proof Qhalf_2 as Hh.
    assert (H2 : Qint 2 <> 0%Qc) by (apply Qint_neq; lia).
    assert (Hq : Qhalf = (1 / Qint 2)%Qc) by (rewrite <- Hh; now field).
    pose proof scale_pos as S. destruct Hm as (H1 & H3 & H4). destruct m as [| |[s|]].
    - unfold frac. rewrite Z.add_0_r, Qint_mul. assert (Qint ny <> 0%Qc) by (apply Qint_neq; lia). now field.
    - unfold frac. rewrite Z.add_0_r, Qint_mul. assert (Qint (ny - 1) <> 0%Qc) by (apply Qint_neq; lia). now field.
    - destruct (S s eq_refl) as [S1 _]. set (a := Qnum (this s)) in *. set (b := Z.pos (Qden (this s))) in *.
      rewrite (scale_frac s). fold a b. unfold frac. rewrite Qint_add, Qint_sub, !Qint_mul, Hq.
      assert (Qint a <> 0%Qc) by (apply Qint_neq; lia). assert (Qint b <> 0%Qc) by (apply Qint_neq; lia). field. auto.
    - unfold frac. rewrite Qint_add, Qint_sub, !Qint_mul, Hq. assert (Qint ny <> 0%Qc) by (apply Qint_neq; lia). field. auto.
  Qed.

  Lemma source_frac y : source m nx ny y = frac (Z.max 0 (num y)) de.
  Proof.
    unfold source. rewrite position_frac. pose proof de_pos as D.
    destruct (frac_negative_dec (num y) de D) as [[Hn Hf]|[Hn Hf]]; destruct (Qclt_le_dec (frac (num y) de) 0) as [G|G].
    - rewrite Z.max_l by lia. unfold frac. rewrite Qint_0. symmetry. unfold Qcdiv. apply Qcmult_0_l.
    - exfalso. exact (Qcle_not_lt _ _ G Hf).
    - exfalso. exact (Qcle_not_lt _ _ Hf G).
    - now rewrite Z.max_r by lia.
  Qed.

  (** The first element that output [y] reads. *)
  Definition first_read (y : Z) : Z := Z.max 0 (num y) / de.

  Lemma floor_source y : floor_of (source m nx ny y) = first_read y.
  Proof. rewrite source_frac. change floor_of with Qcfloor. apply floor_frac, de_pos. Qed.

  Lemma first_read_mono y y' : y <= y' -> first_read y <= first_read y'.
  Proof.
    intros H. pose proof de_pos. pose proof al_nonneg. unfold first_read. apply Z.div_le_mono; auto. unfold num, line_at. nia.
  Qed.

  Lemma first_read_bounds y : y < ny -> 0 <= first_read y < nx.
  Proof.
    intros H. pose proof de_pos as D. pose proof al_nonneg as A. pose proof last_inside as La. destruct Hm as (H1 & _).
    split.
    - apply Z.div_pos; lia.
    - apply Z.div_lt_upper_bound; auto. unfold num, line_at in *. nia.
  Qed.

  Lemma first_read_spec y : de * first_read y <= Z.max 0 (num y) < de * (first_read y + 1).
  Proof.
    unfold first_read. pose proof de_pos as D. pose proof (Z.div_mod (Z.max 0 (num y)) de ltac:(lia)).
    pose proof (Z.mod_pos_bound (Z.max 0 (num y)) de D). lia.
  Qed.

  Lemma reads_eq y : reads m nx ny y =
    match m with
    | Constant => [(first_read y, 1%Qc)]
    | _ => let t := rounded (frac (Z.max 0 (num y) - first_read y * de) de) in
           [(first_read y, (1 - t)%Qc); (Z.min (nx - 1) (first_read y + 1), t)]
    end.
  Proof.
    unfold reads. rewrite !floor_source, source_frac. change of_Z with Qint. pose proof de_pos.
    rewrite frac_sub by lia. reflexivity.
  Qed.
End OneDim.

(** * The code in exact arithmetic *)

Lemma tiny_spec (a : Qc) : Qctiny a = true <-> (Qabs (this a) < 1 # 10000)%Q.
Proof.
  unfold Qctiny. rewrite negb_true_iff. split; intros H.
  - apply Qnot_le_lt. intros G. apply Qle_bool_iff in G. congruence.
  - destruct (Qle_bool _ _) eqn:E; auto. apply Qle_bool_iff in E. exfalso. exact (Qlt_not_le _ _ H E).
Qed.

Lemma snap (t : Qc) : (0 <= t)%Qc -> (t < 1)%Qc ->
  (let l := if Qctiny t then Qint 0 else t in if Qctiny (l - Qint 1)%Qc then Qint 1 else l) = rounded t.
Proof.
  intros H0 H1. unfold Qcle, Qclt in *. change (this 0%Qc) with 0%Q in *. change (this 1%Qc) with 1%Q in *. cbv zeta. unfold rounded.
  assert (T0 : Qctiny t = true <-> (t < Q2Qc (1 # 10000))%Qc).
  { rewrite tiny_spec, Qabs_pos by auto. unfold Qclt. now rewrite this_Q2Qc. }
  assert (T1 : Qctiny (t - Qint 1)%Qc = true <-> (Q2Qc (9999 # 10000) < t)%Qc).
  { rewrite tiny_spec. unfold Qclt. rewrite this_Q2Qc.
    assert (E : (Qabs (this (t - Qint 1)%Qc) == 1 - this t)%Q).
    { rewrite this_minus, this_int. change (inject_Z 1) with 1%Q. rewrite Qabs_neg; lra. }
    rewrite E. split; intros; lra. }
  destruct (Qctiny t) eqn:E0.
  - destruct (Qclt_le_dec t (Q2Qc (1 # 10000))) as [G|G]; [|exfalso; apply (Qcle_not_lt _ _ G); now apply T0].
    replace (Qctiny (Qint 0 - Qint 1)%Qc) with false by reflexivity. apply Qint_0.
  - destruct (Qclt_le_dec t (Q2Qc (1 # 10000))) as [G|G]; [apply T0 in G; discriminate|].
    destruct (Qctiny (t - Qint 1)%Qc) eqn:E1.
    + destruct (Qclt_le_dec (Q2Qc (9999 # 10000)) t) as [K|K]; [apply Qint_1|exfalso; apply (Qcle_not_lt _ _ K); now apply T1].
    + destruct (Qclt_le_dec (Q2Qc (9999 # 10000)) t) as [K|K]; auto. apply T1 in K. discriminate.
Qed.

Lemma clamp_id i n : 0 <= i < n -> clamp_idx_to_range i 0 (n - 1) = i.
Proof. unfold clamp_idx_to_range. lia. Qed.

Section Exact.
  Variables (mode : imode exact) (nx ny : Z).
  Let m := method_of mode.
  Hypothesis Hm : sensible m nx ny.

  Let al := rise m nx ny.
  Let be := offset m nx ny.
  Let de := denom m nx ny.
  Let num := line_at m nx ny.
  Let fr := first_read m nx ny.

  Lemma line_nonneg y : 0 <= y -> match mode with Linear _ false => True | _ => 0 <= num y end.
  Proof.
    intros Hy. pose proof (al_nonneg m nx ny Hm) as A. unfold num, line_at, al, be in *. unfold m in *.
    destruct mode as [|s [|]]; auto; cbn [offset method_of rise] in *; nia.
  Qed.

  Lemma source_index_exact y : 0 <= y -> source_index exact mode true nx ny y = fr y.
  Proof.
    intros Hy. pose proof (line_nonneg y Hy) as Nn. pose proof (de_pos m nx ny Hm) as D. pose proof (position_frac m nx ny Hm y) as Pf.
    unfold fr, first_read. fold de num. unfold source_index, m in *.
    destruct mode as [|s [|]]; cbn [method_of position exact s_int s_div s_mul s_sub s_half_more s_floor s_negative] in *.
    - rewrite Z.max_r by lia. rewrite <- floor_frac by auto. unfold num, de. cbn [method_of]. rewrite <- Pf. 
      rewrite Qcmult_comm. reflexivity.
    - rewrite Z.max_r by lia. rewrite <- floor_frac by auto. unfold num, de. cbn [method_of]. rewrite <- Pf.
      rewrite Qcmult_comm, <- !Qint_sub. reflexivity.
    - match goal with |- Qcfloor (if Qcnegative ?p then _ else _) = _ => replace p with (frac (num y) de) end.
      + rewrite negative_frac by auto. rewrite <- floor_frac by auto. f_equal.
        destruct (Z.ltb_spec (num y) 0).
        * rewrite Z.max_l by lia. unfold frac, Qcdiv. rewrite Qint_0. symmetry. apply Qcmult_0_l.
        * now rewrite Z.max_r by lia.
      + unfold num, de. cbn [method_of]. rewrite <- Pf. change of_Z with Qint. change (Q2Qc (1 # 2)) with Qhalf. rewrite Qint_0, Qint_1.
        destruct s as [s|]; ring_simplify; [unfold Qcdiv; ring|ring].
  Qed.

  (** What the kernel reads for output [o] of its block. *)
  Definition kernel_reads (k : kdim) (o : Z) : list (Z * Qc) :=
    match mode with
    | Nearest => [(compute_nearest_left_idx_weight exact k o, 1%Qc)]
    | Linear s c => let '(i0, w0, i1, w1) := compute_linear_idx_weight exact s c k o in [(i0, w0); (i1, w1)]
    end.

  Section Kernel.
    Variables (k : kdim) (o : Z).
    Let y := off_out k + o.
    Let st := off_in k.
    Hypothesis Gi : g_in k = nx.
    Hypothesis Go : g_out k = ny.
    Hypothesis Hy : 0 <= y < ny.
    Hypothesis Hst : 0 <= st <= fr y.
    Hypothesis Hlen : fr y < st + n_in k.
    Hypothesis Hlin : match mode with Nearest => True | _ => Z.min (nx - 1) (fr y + 1) < st + n_in k <= nx end.

    Lemma shifted : (Z.max 0 (num y) - st * de) / de = fr y - st.
    Proof.
      pose proof (de_pos m nx ny Hm) as D. unfold fr, first_read. fold de num.
      replace (Z.max 0 (num y) - st * de) with (Z.max 0 (num y) + (- st) * de) by ring. rewrite Z.div_add by (unfold de; lia). lia.
    Qed.

    Lemma clipped : (if num y - st * de <? 0 then Qint 0 else frac (num y - st * de) de) = frac (Z.max 0 (num y) - st * de) de.
    Proof.
      pose proof (de_pos m nx ny Hm) as D. fold de in D. pose proof (first_read_spec m nx ny Hm y) as F. fold de num in F.
      change (first_read m nx ny y) with (fr y) in F.
      destruct (Z.lt_ge_cases (num y) 0) as [N|N].
      - assert (E : fr y = 0).
        { destruct (Z.eq_dec (fr y) 0) as [|Ne]; auto. exfalso. assert (0 < de * fr y) by (apply Z.mul_pos_pos; lia). lia. }
        assert (Es : st = 0) by lia. rewrite Es.
        destruct (Z.ltb_spec (num y - 0 * de) 0); [|lia]. rewrite Z.max_l by lia. unfold frac, Qcdiv. rewrite Z.mul_0_l, Z.sub_0_r, Qint_0.
        symmetry. apply Qcmult_0_l.
      - rewrite Z.max_r in * by lia. destruct (Z.ltb_spec (num y - st * de) 0); auto.
        assert (st * de <= fr y * de) by (apply Z.mul_le_mono_nonneg_r; lia). lia.
    Qed.

    Lemma kernel_reads_exact : kernel_reads k o = map (fun r => (fst r - st, snd r)) (reads m nx ny y).
    Proof.
      pose proof (line_nonneg y (proj1 Hy)) as Nn.
      pose proof (de_pos m nx ny Hm) as D. fold de in D. pose proof (position_frac m nx ny Hm y) as Pf. fold de num in Pf.
      rewrite (reads_eq m nx ny Hm). fold de num. change (first_read m nx ny y) with (fr y).
      pose proof shifted as Sh.
      assert (Cl : (if num y - st * de <? 0 then (Qint 0 : scalar exact) else frac (num y - st * de) de) = frac (Z.max 0 (num y) - st * de) de)
        by exact clipped.
      assert (Linear_case : forall s c, mode = Linear s c ->
        (if c then s_sub exact (s_mul exact (s_div exact (s_int exact (g_in k - 1)) (s_int exact (g_out k - 1))) (s_int exact (off_out k + o))) (s_int exact (off_in k))
         else s_cast exact (s_wsub exact (s_wmul exact
                (match s with Some s => s_cast exact (s_wdiv exact (s_int exact 1) s) | None => s_div exact (s_int exact (g_in k)) (s_int exact (g_out k)) end)
                (s_half_more exact (off_out k + o))) (s_half_more exact (off_in k)))) = frac (num y - st * de) de).
      { intros s c E. rewrite <- frac_sub by lia. rewrite <- Pf. rewrite Gi, Go. fold y. fold st.
        cbn [exact s_int s_div s_mul s_sub s_half_more s_floor s_negative s_wdiv s_wmul s_wsub s_cast].
        unfold m in *. rewrite E. cbn [method_of]. change of_Z with Qint.
        match goal with |- @eq _ ?a ?b => change (@eq Qc a b) end.
        destruct c; cbn [position]; change of_Z with Qint; [ring|]. change (Q2Qc (1 # 2)) with Qhalf. rewrite Qint_1.
        destruct s as [s|]; [unfold Qcdiv; ring|ring]. }
      unfold kernel_reads, m in *. destruct mode as [|s c] eqn:Em.
      - cbn [method_of map fst snd]. f_equal. f_equal. unfold compute_nearest_left_idx_weight. rewrite Gi, Go. fold y. fold st.
        cbn [exact s_int s_div s_mul s_sub s_floor]. cbn [method_of position] in Pf. change of_Z with Qint in Pf.
        rewrite Qcmult_comm, Pf, frac_sub by lia. rewrite floor_frac by auto. rewrite Z.max_r in Sh by lia. rewrite Sh.
        apply clamp_id. lia.
      - specialize (Linear_case s c eq_refl). unfold compute_linear_idx_weight. cbv zeta.
        match goal with |- context [s_negative exact ?i] => set (idx_ := i) end.
        assert (Ei : idx_ = frac (num y - st * de) de).
        { rewrite <- Linear_case. unfold idx_. destruct c; reflexivity. }
        rewrite Ei. cbn [exact s_negative s_int].
        rewrite negative_frac by auto. rewrite Cl. cbn [s_floor]. rewrite floor_frac, Sh by auto.
        rewrite (clamp_id (fr y - st)) by lia. cbn [s_sub s_wsub s_cast s_tiny].
        rewrite frac_sub by lia. replace (Z.max 0 (num y) - st * de - (fr y - st) * de) with (Z.max 0 (num y) - fr y * de) by ring.
        set (t := frac (Z.max 0 (num y) - fr y * de) de).
        assert (Ht : (0 <= t)%Qc /\ (t < 1)%Qc).
        { pose proof (first_read_spec _ nx ny Hm y) as F. fold de num in F. change (first_read _ nx ny y) with (fr y) in F.
          unfold t. split.
          - unfold Qcle. rewrite this_frac by auto. unfold Qle. cbn. lia.
          - unfold Qclt. rewrite this_frac by auto. unfold Qlt. cbn. rewrite Z2Pos.id by auto. lia. }
        pose proof (snap t (proj1 Ht) (proj2 Ht)) as Sn. cbv zeta in Sn.
        assert (Ec : match method_of (Linear s c) with Constant => False | _ => True end) by (destruct c; exact I).
        replace (clamp_idx_to_range (fr y - st + 1) 0 (n_in k - 1)) with (Z.min (nx - 1) (fr y + 1) - st)
          by (unfold clamp_idx_to_range; lia).
        rewrite <- Sn. destruct (method_of (Linear s c)); [easy|reflexivity|reflexivity].
    Qed.
  End Kernel.
End Exact.
