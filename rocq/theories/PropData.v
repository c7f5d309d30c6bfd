(** Properties of [allgather_data] and [allreduce_data]. *)

From Coq Require Import String.
From Verif Require Import Prelude SpecIndex ProofSlicing ModelPartition SpecPartition ProofPartition Ring Tensor ModelData.
Import ListNotations.
Local Open Scope list_scope.
Local Open Scope Z_scope.

(** ** C65 *)

Definition greatest (l : list Z) (m : Z) : Prop := In m l /\ forall x, In x l -> x <= m.
Definition least (l : list Z) (m : Z) : Prop := In m l /\ forall x, In x l -> m <= x.

(** [t] is, entry by entry, [Q] of the values of all workers. *)
Definition entrywise (ranks : list Z) (data : Z -> tensor Zring) (Q : list Z -> Z -> Prop) (shape : list Z) (t : tensor Zring) : Prop :=
  tshape t = shape /\ forall i, valid_index shape i -> Q (map (fun u => tat (data u) i) ranks) (tat t i).

Definition C65_allreduce_statement : Prop :=
  forall (ranks : list Z) (k : kind) (op : string) (data : Z -> tensor Zring) (shape : list Z),
  (forall u, In u ranks -> tshape (data u) = shape) ->
  forall v, In v ranks ->
  let y := allreduce_data ranks (fun _ => k) (fun _ => op) data v in
  (op = "sum"%string -> exists t, y = Returned t /\ entrywise ranks data (fun l s => s = zsum l) shape t) /\
  (op = "prod"%string -> exists t, y = Returned t /\ entrywise ranks data (fun l s => s = zprod l) shape t) /\
  (op = "max"%string -> In k [KInt; KUnsigned; KFloat] -> exists t, y = Returned t /\ entrywise ranks data greatest shape t) /\
  (op = "min"%string -> In k [KInt; KUnsigned; KFloat] -> exists t, y = Returned t /\ entrywise ranks data least shape t) /\
  (* otherwise an exception on every worker, before any communication *)
  (In op ["max"; "min"]%string -> ~ In k [KInt; KUnsigned; KFloat] -> y = UnboundLocalError) /\
  (~ In op ["sum"; "prod"; "max"; "min"]%string -> y = ValueError).

(** The rows of the result are the workers' data, in rank order. *)
Definition C65_allgather_statement : Prop :=
  forall (ranks : list Z) (data : Z -> tensor Zring) (n : Z),
  0 < n ->
  (forall u, In u ranks -> tshape (data u) = [n]) \/ (n = 1 /\ forall u, In u ranks -> tshape (data u) = []) ->
  forall v, In v ranks ->
  exists t, allgather_data ranks data v = Returned t /\ tshape t = [Z.of_nat (length ranks); n] /\
    forall r u j, nth_error ranks r = Some u -> 0 <= j < n ->
      tat t [Z.of_nat r; j] = tat (data u) (match tshape (data u) with [] => [] | _ => [j] end).

(** [compute_subtensor_shapes_unbalanced]: every worker learns the extents of all
    workers' tensors. *)
Definition C65_shapes_statement : Prop :=
  forall (P : part) (k : kind) (local : Z -> list Z),
  part_ok P ->
  let dim := length (p_shape P) in
  let own u := own_shapes (p_shape P) (match index_in P u with Some idx => idx | None => [] end) (local u) in
  forall v, In v (p_ranks P) ->
  exists t, allreduce_data (p_ranks P) (fun _ => k) (fun _ => "sum"%string) own v = Returned t /\
    tshape t = p_shape P ++ [Z.of_nat dim] /\
    forall u idx d, worker_at P idx u -> (d < dim)%nat -> tat t (idx ++ [Z.of_nat d]) = nth d (local u) 0.

Lemma fold_left_add a l : fold_left Z.add l a = a + zsum l.
Proof. revert a. induction l as [|x l IH]; intros a; cbn; [lia|]. rewrite IH. unfold zsum. lia. Qed.
Lemma fold_left_mul a l : fold_left Z.mul l a = a * zprod l.
Proof. revert a. induction l as [|x l IH]; intros a; cbn; [lia|]. rewrite IH. unfold zprod. lia. Qed.
Lemma fold_left_max a l : greatest (a :: l) (fold_left Z.max l a).
Proof.
  revert a. induction l as [|x l IH]; intros a; cbn [fold_left].
  - split; [now left|]. intros x [<-|[]]. lia.
  - destruct (IH (Z.max a x)) as [A B]. split.
    + destruct A as [<-|A]; [|right; now right]. destruct (Z.max_spec a x) as [[_ ->]|[_ ->]]; [right; now left|now left].
    + intros y [<-|[<-|Hy]]; [| |apply B; now right]; pose proof (B (Z.max a x) (or_introl eq_refl)); lia.
Qed.
Lemma fold_left_min a l : least (a :: l) (fold_left Z.min l a).
Proof.
  revert a. induction l as [|x l IH]; intros a; cbn [fold_left].
  - split; [now left|]. intros x [<-|[]]. lia.
  - destruct (IH (Z.min a x)) as [A B]. split.
    + destruct A as [<-|A]; [|right; now right]. destruct (Z.min_spec a x) as [[_ ->]|[_ ->]]; [now left|right; now left].
    + intros y [<-|[<-|Hy]]; [| |apply B; now right]; pose proof (B (Z.min a x) (or_introl eq_refl)); lia.
Qed.

Lemma has_info_spec k : has_info k = true <-> In k [KInt; KUnsigned; KFloat].
Proof. destruct k; cbn; intuition (try discriminate). Qed.

Lemma allreduce_returns ranks k op data shape v f : (forall u, In u ranks -> tshape (data u) = shape) -> In v ranks ->
  select_operation k op = Returned f ->
  allreduce_data ranks (fun _ => k) (fun _ => op) data v =
  Returned (@mkt Zring shape (fun i => combine_all f (map (fun u => tat (data u) i) ranks))).
Proof.
  intros HS Hv E. unfold allreduce_data. rewrite E, (proj2 (forallb_forall _ _)).
  - now rewrite (HS v Hv).
  - intros u Hu. rewrite (HS u Hu), (HS v Hv), String.eqb_refl, Z.eqb_refl. reflexivity.
Qed.

Lemma C65_allreduce_proof : C65_allreduce_statement.
Proof.
  intros ranks k op data shape HS v Hv y.
  assert (NE : forall i, exists a l, map (fun u => tat (data u) i) ranks = a :: l).
  { intros i. destruct ranks as [|a ranks]; [destruct Hv|]. now eexists _, _. }
  repeat apply conj.
  - intros ->. eexists. split; [apply (allreduce_returns _ _ _ _ shape _ Z.add HS Hv); reflexivity|].
    split; [reflexivity|]. intros i _. cbn [tat]. destruct (NE i) as (a & l & ->). unfold combine_all. cbn [hd tl].
    now rewrite fold_left_add.
  - intros ->. eexists. split; [apply (allreduce_returns _ _ _ _ shape _ Z.mul HS Hv); reflexivity|].
    split; [reflexivity|]. intros i _. cbn [tat]. destruct (NE i) as (a & l & ->). unfold combine_all. cbn [hd tl].
    now rewrite fold_left_mul.
  - intros -> Hk. apply has_info_spec in Hk. eexists.
    split; [apply (allreduce_returns _ _ _ _ shape _ Z.max HS Hv); unfold select_operation; cbn; now rewrite Hk|].
    split; [reflexivity|]. intros i _. cbn [tat]. destruct (NE i) as (a & l & ->). apply fold_left_max.
  - intros -> Hk. apply has_info_spec in Hk. eexists.
    split; [apply (allreduce_returns _ _ _ _ shape _ Z.min HS Hv); unfold select_operation; cbn; now rewrite Hk|].
    split; [reflexivity|]. intros i _. cbn [tat]. destruct (NE i) as (a & l & ->). apply fold_left_min.
  - intros Ho Hk. assert (E : has_info k = false).
    { destruct (has_info k) eqn:E; auto. apply has_info_spec in E. contradiction. }
    destruct Ho as [<-|[<-|[]]]; unfold y, allreduce_data, select_operation; cbn; now rewrite E.
  - intros Ho. unfold y, allreduce_data, select_operation. cbn [In] in Ho.
    destruct (String.eqb_spec op "sum"); [intuition congruence|]. destruct (String.eqb_spec op "prod"); [intuition congruence|].
    destruct (String.eqb_spec op "max"); [intuition congruence|]. destruct (String.eqb_spec op "min"); [intuition congruence|].
    reflexivity.
Qed.

Theorem C65_allreduce : C65_allreduce_statement.
Proof. exact C65_allreduce_proof. Qed.

Lemma C65_allgather_proof : C65_allgather_statement.
Proof.
  intros ranks data n Hn HS v Hv. unfold allgather_data.
  assert (A : forall u, In u ranks -> tshape (atleast_1d (data u)) = [n]).
  { intros u Hu. unfold atleast_1d. destruct HS as [HS|[-> HS]]; rewrite (HS u Hu); cbn; auto. }
  rewrite (proj2 (forallb_forall _ _)).
  2: { intros u Hu. rewrite (A u Hu), (A v Hv). cbn. apply Z.eqb_eq. lia. }
  rewrite (A v Hv). cbn [hd]. destruct (n =? 0) eqn:E; breflect; [lia|].
  eexists. split; [reflexivity|]. split; [reflexivity|]. intros r u j Hr Hj. cbn [tat nth].
  rewrite Nat2Z.id, (nth_error_nth _ _ 0 Hr). assert (Hu : In u ranks) by (eapply nth_error_In; eauto).
  rewrite (A u Hu). cbn [tl map]. unfold atleast_1d. destruct HS as [HS|[-> HS]]; now rewrite (HS u Hu).
Qed.

Theorem C65_allgather : C65_allgather_statement.
Proof. exact C65_allgather_proof. Qed.

Lemma zsum_single (l : list Z) f u : NoDup l -> In u l -> (forall w, In w l -> w <> u -> f w = 0) -> zsum (map f l) = f u.
Proof.
  induction 1 as [|a l Ha Hl IH]; intros Hu Hf; [destruct Hu|]. cbn [map zsum fold_right]. fold (zsum (map f l)).
  destruct Hu as [->|Hu].
  - assert (zsum (map f l) = 0) as ->; [|lia].
    clear IH Hl. assert (G : forall w, In w l -> f w = 0) by (intros w Hw; apply Hf; [now right|intros ->; contradiction]).
    clear Hf Ha. induction l as [|b l IH]; [reflexivity|]. cbn [map zsum fold_right]. fold (zsum (map f l)).
    rewrite IH, (G b) by (intros; try apply G; cbn; auto). reflexivity.
  - rewrite IH; auto; [|intros; apply Hf; auto; now right]. rewrite (Hf a); [lia|now left|]. intros ->. contradiction.
Qed.

Lemma C65_shapes_proof : C65_shapes_statement.
Proof.
  intros P k local HP dim own v Hv.
  assert (HS : forall u, In u (p_ranks P) -> tshape (own u) = p_shape P ++ [Z.of_nat dim]) by reflexivity.
  destruct (proj1 (C65_allreduce_proof (p_ranks P) k "sum"%string own _ HS v Hv) eq_refl) as (t & E & T1 & T2).
  exists t. split; [exact E|]. split; [exact T1|]. intros u idx d Hu Hd.
  pose proof (valid_index_length _ _ (proj1 Hu)) as HL.
  rewrite T2.
  2: { apply Forall2_app; [apply Hu|]. repeat constructor; unfold dim in *; lia. }
  assert (F : firstn dim (idx ++ [Z.of_nat d]) = idx).
  { unfold dim. rewrite <- HL. rewrite firstn_app, Nat.sub_diag, firstn_all. apply app_nil_r. }
  assert (N : nth dim (idx ++ [Z.of_nat d]) 0 = Z.of_nat d).
  { unfold dim. rewrite <- HL. now rewrite app_nth2, Nat.sub_diag by lia. }
  rewrite (zsum_single _ _ u).
  - unfold own, own_shapes. rewrite (proj2 (index_in_spec P u idx HP) Hu). cbn [tat]. fold dim. rewrite F, N, Nat2Z.id.
    now destruct (list_eq_dec Z.eq_dec idx idx).
  - apply HP.
  - now apply worker_at_In in Hu.
  - intros w Hw Hne. destruct (worker_at_exists P w HP Hw) as (idx' & Hw').
    unfold own, own_shapes. rewrite (proj2 (index_in_spec P w idx' HP) Hw'). cbn [tat]. fold dim. rewrite F.
    destruct (list_eq_dec Z.eq_dec idx idx') as [<-|]; [|reflexivity]. exfalso. apply Hne. exact (worker_at_inj P idx w u Hw' Hu).
Qed.

Theorem C65_shapes : C65_shapes_statement.
Proof. exact C65_shapes_proof. Qed.

(** Three workers with two integers each. *)
Example C65_example :
  let data u := @mkt Zring [2] (fun i => u * u - 3 * nth 0 i 0 * u) in
  let entries y := match y with Returned t => map (fun j => tat t [j]) [0; 1] | _ => [] end in
  let red op k := allreduce_data [4; 1; 2] (fun _ => k) (fun _ => op) data 2 in
  entries (red "sum"%string KInt) = [21; 0] /\ entries (red "max"%string KInt) = [16; 4] /\
  entries (red "min"%string KFloat) = [1; -2] /\ entries (red "prod"%string KBool) = [64; 16] /\
  red "max"%string KBool = UnboundLocalError /\ red "mean"%string KInt = ValueError /\
  match allgather_data [4; 1; 2] data 2 with
  | Returned t => tshape t = [3; 2] /\ map (fun r => tat t [r; 1]) [0; 1; 2] = [4; -2; -2]
  | _ => False
  end.
Proof. vm_compute. repeat split. Qed.

Example C65_shapes_example :
  let P := mkpart 0 [5; 3; 8; 1] [2; 2] in
  let local u := [u; 10 * u] in
  let own u := own_shapes (p_shape P) (match index_in P u with Some idx => idx | None => [] end) (local u) in
  part_ok P /\
  match allreduce_data (p_ranks P) (fun _ => KInt) (fun _ => "sum"%string) own 3 with
  | Returned t => tshape t = [2; 2; 2] /\ map (tat t) [[0; 0; 1]; [0; 1; 0]; [1; 0; 1]; [1; 1; 0]] = [50; 3; 80; 1]
  | _ => False
  end.
Proof.
  split; [|vm_compute; repeat split].
  split; [repeat constructor; cbn; intuition lia|]. split; [discriminate|]. split; [repeat constructor; lia|reflexivity].
Qed.

Print Assumptions C65_allreduce.
Print Assumptions C65_allgather.
Print Assumptions C65_shapes.
