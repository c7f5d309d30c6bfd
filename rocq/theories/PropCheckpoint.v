(** Saving and restoring batch normalisation layers: C89. *)

From Coq Require Import QArith Qcanon.
From Verif Require Import Prelude SpecIndex SpecLayout SpecPartition ModelSlicing ProofSlicing ProofDecomposition ModelPartition ProofPartition
  Ring Tensor ModelCollectives Blocks ProofRepartition PropRepartition ModelBatchNorm SpecBatchNorm ProofBatchNorm PropBatchNorm
  ModelCheckpoint.

Open Scope Z_scope.

(** ** C89 *)

(** After the calls [before] every worker saves its state_dict and loads it into a
    newly constructed layer, which always succeeds.  The new layer then treats the
    calls [after] like the old one would have: same outputs or exceptions, same
    statistics.  [allowed] restricts the layer and these calls. *)
Definition C89_statement (allowed : forall R : CRing, option R -> bool -> list (bncall R) -> Prop) : Prop :=
  forall (R : CRing) (A : arith R) P num_features eps momentum affine track dt rg (before after : list (bncall R)) (steps : list (step R)),
  part_ok P -> (2 <= length (p_shape P))%nat -> 0 <= num_features ->
  nonzero R A momentum -> (momentum = None -> divides A) ->
  Forall2 (distributes P num_features affine) before steps ->
  allowed R momentum track after ->
  let run := bn_run A P num_features eps momentum affine track dt rg in
  let new := bn_start P num_features in
  let old := snd (run new before) in
  (forall idx v, worker_at P idx v -> exists s, bn_load track (new v) (bn_save track (old v)) = Ok s) /\
  forall st, (forall idx v, worker_at P idx v -> bn_load track (new v) (bn_save track (old v)) = Ok (st v)) ->
  forall idx v, worker_at P idx v ->
    let '(ys, st') := run st after in
    let '(Ys, old') := run new (before ++ after) in
    map (fun y => y v) ys = map (fun y => y v) (skipn (length before) Ys) /\
    (track = true -> running_mean (st' v) = running_mean (old' v) /\ running_var (st' v) = running_var (old' v)).

(** Layers with a momentum, or without statistics, or no further training. *)
Definition resumable (R : CRing) (momentum : option R) (track : bool) (after : list (bncall R)) : Prop :=
  momentum <> None \/ track = false \/ Forall (fun c => k_training c = false) after.
Definition unrestricted (R : CRing) (momentum : option R) (track : bool) (after : list (bncall R)) : Prop := True.

(** *** Proofs *)

Section Local.
  Context {R : CRing}.
  Variables (A : arith R) (P : part) (num_features : Z) (eps : R) (momentum : option R) (affine track : bool).
  Variables (dt : Z -> Z) (rg : Z -> bool).
  Notation run := (bn_run A P num_features eps momentum affine track dt rg).

  (** States that differ in the count only. *)
  Definition alike (s t : bnstate R) : Prop :=
    track = true -> running_mean s = running_mean t /\ running_var s = running_var t.

  Definition agree (a b : result (tensor R * bnstate R)) : Prop :=
    match a, b with
    | Ok (x, s), Ok (y, t) => x = y /\ alike s t
    | Raise e, Raise f => e = f
    | _, _ => False
    end.

  Lemma update_alike s t m w : nonzero R A momentum -> momentum <> None -> track = true -> alike s t ->
    match update_running A momentum s m w, update_running A momentum t m w with
    | Ok s', Ok t' => alike s' t'
    | Raise e, Raise f => e = f
    | _, _ => False
    end.
  Proof.
    intros Hz Hn Ht H. destruct (H Ht) as [E1 E2]. unfold update_running. destruct momentum as [a|]; [|congruence].
    rewrite (Hz a eq_refl), E1, E2. destruct (pointwise _ (running_mean t) m); cbn [rbind]; [|reflexivity].
    destruct (pointwise _ (running_var t) w); cbn [rbind]; [|reflexivity]. intros _. split; reflexivity.
  Qed.

  Lemma statistics_alike st1 st2 c v : nonzero R A momentum -> (momentum <> None \/ track = false \/ k_training c = false) ->
    alike (st1 v) (st2 v) ->
    match bn_statistics A P num_features momentum track dt rg st1 c v, bn_statistics A P num_features momentum track dt rg st2 c v with
    | Ok (m, s, t), Ok (m', s', t') => m = m' /\ s = s' /\ alike t t'
    | Raise e, Raise f => e = f
    | _, _ => False
    end.
  Proof.
    intros Hz Hc H. unfold bn_statistics. destruct (sum_partition P) as [Psum|]; cbn [rbind]; [|reflexivity].
    destruct (global_shape P (k_input c) v) as [gs|]; cbn [rbind]; [|reflexivity].
    destruct (negb (nth 1 gs 0 =? num_features)); [reflexivity|].
    destruct (negb (k_training c) && track) eqn:E.
    - apply andb_prop in E as [_ E]. destruct (H E) as [E1 E2]. auto.
    - cbv zeta. match goal with |- context [let* m := ?a in _] => destruct a as [m|] end; cbn [rbind]; [|reflexivity].
      match goal with |- context [let* s := ?a in _] => destruct a as [s|] end; cbn [rbind]; [|reflexivity].
      destruct (k_training c && track) eqn:E'; [|auto].
      apply andb_prop in E' as [Ek Et]. destruct Hc as [Hc|[Hc|Hc]]; [|congruence..].
      pose proof (update_alike (st1 v) (st2 v) m s Hz Hc Et H) as U.
      destruct (update_running _ _ (st1 v) m s), (update_running _ _ (st2 v) m s); cbn [rbind]; (contradiction || auto).
  Qed.

  Lemma forward_alike st1 st2 c v : nonzero R A momentum -> (momentum <> None \/ track = false \/ k_training c = false) ->
    alike (st1 v) (st2 v) ->
    agree (bn_forward A P num_features eps momentum affine track dt rg st1 c v)
          (bn_forward A P num_features eps momentum affine track dt rg st2 c v).
  Proof.
    intros Hz Hc H. pose proof (statistics_alike st1 st2 c v Hz Hc H) as S. unfold bn_forward.
    destruct (sum_partition P) as [Psum|]; cbn [rbind]; [|reflexivity].
    destruct (bn_statistics _ _ _ _ _ _ _ st1 c v) as [[[m s] t]|e], (bn_statistics _ _ _ _ _ _ _ st2 c v) as [[[m' s'] t']|e'];
      cbn [rbind]; try contradiction; [|exact S].
    destruct S as (<- & <- & S).
    destruct (pointwise rsub (k_input c v) m); cbn [rbind]; [|reflexivity].
    destruct (pointwise _ _ s); cbn [rbind]; [|reflexivity].
    destruct affine; [|now split].
    destruct (broadcast_layer _ _ _ _ _ _ _ _ (k_gamma c) v); cbn [rbind]; [|reflexivity].
    destruct (broadcast_layer _ _ _ _ _ _ _ _ (k_beta c) v); cbn [rbind]; [|reflexivity].
    destruct (pointwise rmul _ _); cbn [rbind]; [|reflexivity].
    destruct (pointwise radd _ _); cbn [rbind]; [|reflexivity].
    now split.
  Qed.

  Lemma run_alike v calls : nonzero R A momentum -> resumable R momentum track calls -> forall st1 st2,
    alike (st1 v) (st2 v) ->
    map (fun y => y v) (fst (run st1 calls)) = map (fun y => y v) (fst (run st2 calls)) /\
    alike (snd (run st1 calls) v) (snd (run st2 calls) v).
  Proof.
    intros Hz. induction calls as [|c cs IH]; intros Hr st1 st2 H; [split; [reflexivity|exact H]|].
    assert (Hr' : resumable R momentum track cs).
    { destruct Hr as [Hr|[Hr|Hr]]; [now left|right; now left|right; right]. now inversion Hr. }
    assert (Hc : momentum <> None \/ track = false \/ k_training c = false).
    { destruct Hr as [Hr|[Hr|Hr]]; [now left|right; now left|right; right]. now inversion Hr. }
    pose proof (forward_alike st1 st2 c v Hz Hc H) as F. cbn [bn_run].
    set (s1 := fun u => match bn_forward _ _ _ _ _ _ _ _ _ st1 c u with Ok (_, s) => s | Raise _ => st1 u end).
    set (s2 := fun u => match bn_forward _ _ _ _ _ _ _ _ _ st2 c u with Ok (_, s) => s | Raise _ => st2 u end).
    assert (H' : alike (s1 v) (s2 v)).
    { unfold s1, s2. unfold agree in F. destruct (bn_forward _ _ _ _ _ _ _ _ _ st1 c v) as [[x t]|], (bn_forward _ _ _ _ _ _ _ _ _ st2 c v) as [[x' t']|];
        try contradiction; [apply F|exact H]. }
    specialize (IH Hr' s1 s2 H'). destruct (run s1 cs) as [y1 r1], (run s2 cs) as [y2 r2]. cbn [fst snd] in *.
    destruct IH as [IH1 IH2]. split; [|exact IH2]. cbn [map]. f_equal; [|exact IH1].
    unfold agree in F. destruct (bn_forward _ _ _ _ _ _ _ _ _ st1 c v) as [[x t]|], (bn_forward _ _ _ _ _ _ _ _ _ st2 c v) as [[x' t']|];
      try contradiction; f_equal; tauto.
  Qed.

  Lemma run_length calls : forall st, length (fst (run st calls)) = length calls.
  Proof.
    induction calls as [|c cs IH]; intros st; [reflexivity|]. cbn [bn_run].
    match goal with |- context [bn_run _ _ _ _ _ _ _ _ _ ?s cs] => specialize (IH s); destruct (run s cs) end.
    cbn [fst length] in *. now rewrite IH.
  Qed.

  Lemma run_app a b : forall st,
    run st (a ++ b) = (fst (run st a) ++ fst (run (snd (run st a)) b), snd (run (snd (run st a)) b)).
  Proof.
    induction a as [|c cs IH]; intros st; [cbn [app bn_run fst snd]; now destruct (run st b)|].
    cbn [app bn_run].
    match goal with |- context [bn_run _ _ _ _ _ _ _ _ _ ?s (cs ++ b)] => specialize (IH s); rewrite IH; destruct (run s cs) end.
    cbn [fst snd app]. reflexivity.
  Qed.
End Local.

Lemma C89_proof : C89_statement resumable.
Proof.
  intros R A P n eps momentum affine track dt rg before after steps HP LP2 Hn Hz Hd HF Hr run new old.
  pose proof (C34_histories_partial R A P n eps momentum affine track dt rg before steps HP LP2 Hn Hz Hd HF) as H34.
  pose proof (start_tracks R P n momentum HP LP2 Hn) as H0.
  fold run new in H34.
  assert (HT : exists q, tracks P n momentum q old).
  { unfold old. destruct (run new before) as [ys st] eqn:E. destruct (sequential _ _ _ _ _ _ _ _) as [Ys q]. exists q. apply H34. }
  clear H34. destruct HT as (q & HT). split.
  - intros idx v Hv. destruct (HT idx v Hv) as ((S1 & _) & (S2 & _) & _). destruct (H0 idx v Hv) as ((T1 & _) & (T2 & _) & _).
    unfold bn_load, bn_save. destruct track; [|now exists (new v)]. fold new in T1, T2. rewrite S1, S2, T1, T2.
    match goal with |- context [if ?d then _ else _] => destruct d as [_|C]; [|now contradict C] end.
    match goal with |- context [if ?d then _ else _] => destruct d as [_|C]; [|now contradict C] end. eexists. reflexivity.
  - intros st Hst idx v Hv. specialize (Hst idx v Hv).
    assert (HA : alike track (st v) (old v)).
    { intros ->. unfold bn_load, bn_save in Hst.
      do 2 match type of Hst with context [if ?d then _ else _] => destruct d as [_|C]; [|discriminate] end.
      injection Hst as <-. split; reflexivity. }
    destruct (run_alike A P n eps momentum affine track dt rg v after Hz Hr st old HA) as [E1 E2].
    unfold run. rewrite run_app. fold run. fold old. destruct (run st after) as [ys st'] eqn:E3. fold run in E1, E2. rewrite E3 in E1, E2.
    cbn [fst snd] in E1, E2. split; [|exact E2].
    rewrite skipn_app, skipn_all2 by (unfold run; rewrite run_length; lia).
    replace (length before - length (fst (run new before)))%nat with 0%nat by (unfold run; rewrite run_length; lia).
    exact E1.
Qed.

(** Missing: layers that average over all calls (momentum None) and train on. *)
Theorem C89_checkpoint_partial : C89_statement resumable.
Proof. exact C89_proof. Qed.

(** Two calls on two workers: 0 and 2, then 0 and 4.  The means 1 and 2 average to
    3/2; after restoring the first call is forgotten. *)
Definition kG : tensor Qring := @mkt Qring [2; 1] (fun i => Q2Qc (inject_Z (4 * nth 0 i 0))).
Definition kcall (training : bool) : bncall Qring := mkcall training (give rP [[1; 1]; [1]] kG) (fun _ => kG) (fun _ => kG).

Theorem C89_count_refuted : ~ C89_statement unrestricted.
Proof.
  intros H. specialize (H Qring Qarith rP 1 (Q2Qc (1 # 8)) None false true (fun _ => 0) (fun _ => false) [rcall] [kcall true] [rstep]
    rP_ok ltac:(cbn; lia) ltac:(lia)).
  specialize (H ltac:(intros a E; discriminate) (fun _ => Qdivides) rsteps I). cbv zeta in H. destruct H as [_ H].
  specialize (H (fun v => mkbn (running_mean (snd (bn_run Qarith rP 1 (Q2Qc (1 # 8)) None false true (fun _ => 0) (fun _ => false) (bn_start rP 1) [rcall]) v))
                               (running_var (snd (bn_run Qarith rP 1 (Q2Qc (1 # 8)) None false true (fun _ => 0) (fun _ => false) (bn_start rP 1) [rcall]) v)) 0)).
  assert (L : forall idx v, worker_at rP idx v -> v = 0 \/ v = 1).
  { intros idx v Hv. apply (index_in_spec rP v idx rP_ok) in Hv.
    destruct (in_dec Z.eq_dec v (p_ranks rP)) as [[<-|[<-|[]]]|Hn]; auto. apply index_in_none in Hn. congruence. }
  specialize (H ltac:(intros idx v Hv; destruct (L idx v Hv) as [->| ->]; reflexivity) [0; 0] 0 r_worker).
  destruct (bn_run _ _ _ _ _ _ _ _ _ _ [kcall true]) as [ys st] eqn:E1.
  destruct (bn_run _ _ _ _ _ _ _ _ _ _ ([rcall] ++ [kcall true])) as [Ys st'] eqn:E2.
  destruct H as [_ H]. destruct (H eq_refl) as [H1 _].
  assert (E3 : this (tat (running_mean (st 0)) [0; 0]) = (2 # 1)%Q).
  { change st with (snd (ys, st)). rewrite <- E1. vm_compute. reflexivity. }
  assert (E4 : this (tat (running_mean (st' 0)) [0; 0]) = (3 # 2)%Q).
  { change st' with (snd (Ys, st')). rewrite <- E2. vm_compute. reflexivity. }
  rewrite H1, E4 in E3. discriminate.
Qed.

(** With momentum 1/2 the same calls, and one without training, give the same
    results after restoring: mean (1/2 * 0 + 1/2 * 1) / 2 + 2 / 2 = 5/4. *)
Definition k_old : Z -> bnstate Qring :=
  snd (bn_run Qarith rP 1 (Q2Qc (1 # 8)) (Some (Q2Qc (1 # 2))) false true (fun _ => 0) (fun _ => false) (bn_start rP 1) [rcall]).
Definition k_new (v : Z) : bnstate Qring :=
  match bn_load true (bn_start rP 1 v) (bn_save true (k_old v)) with Ok s => s | Raise _ => bn_start rP 1 v end.
Example C89_example :
  Forall2 (distributes rP 1 false) [rcall] [rstep] /\ nonzero Qring Qarith (Some (Q2Qc (1 # 2))) /\
  resumable Qring (Some (Q2Qc (1 # 2))) true [kcall true; kcall false] /\
  (let '(ys, st) := bn_run Qarith rP 1 (Q2Qc (1 # 8)) (Some (Q2Qc (1 # 2))) false true (fun _ => 0) (fun _ => false) k_new [kcall true; kcall false] in
   let '(Ys, st') := bn_run Qarith rP 1 (Q2Qc (1 # 8)) (Some (Q2Qc (1 # 2))) false true (fun _ => 0) (fun _ => false) (bn_start rP 1)
                       [rcall; kcall true; kcall false] in
   show (running_mean (st 1)) = ([1; 1], [5 # 4]%Q) /\ show (running_mean (st' 1)) = ([1; 1], [5 # 4]%Q) /\
   map (fun y => match y 1 with Ok t => show t | Raise _ => ([], []) end) ys =
   map (fun y => match y 1 with Ok t => show t | Raise _ => ([], []) end) (tl Ys)).
Proof.
  split; [exact rsteps|]. split; [intros a E; injection E as <-; reflexivity|]. split; [left; discriminate|].
  vm_compute. repeat split; reflexivity.
Qed.

Print Assumptions C89_checkpoint_partial.
Print Assumptions C89_count_refuted.
