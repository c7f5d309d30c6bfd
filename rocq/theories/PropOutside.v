(** C91: workers outside of a layer's partitions.  Every worker calls every layer of
    a network; one that is in none of the partitions of a layer should get its own
    input back and have no influence on the others. *)

From Coq Require Import QArith Qcanon.
From Verif Require Import Prelude SpecIndex SpecLayout SpecPartition ModelSlicing ModelPartition ProofPartition
  Ring Tensor ModelCollectives ProofCollectives PropCollectives ModelHaloMixin ModelFeatureLayer ModelTorch ModelLinear ModelConv
  ModelRepartition PropRepartition ModelUtilities ModelBatchNorm PropBatchNorm ModelLoss PropLoss ModelParameters.

Open Scope Z_scope.

(** ** The claim *)

(** Two families of values that agree on the workers of some partitions. *)
Definition agree {A} (Ps : list part) (a b : Z -> A) : Prop :=
  forall u P, In P Ps -> In u (p_ranks P) -> a u = b u.
(** A worker of none of them. *)
Definition stranger (Ps : list part) (v : Z) : Prop := forall P, In P Ps -> ~ In v (p_ranks P).

(** A layer on partitions [Ps], as a function of what the workers hold. *)
Definition passes_through {R : CRing} (Ps : list part) (layer : (Z -> tensor R) -> Z -> result (tensor R)) : Prop :=
  forall x v, stranger Ps v -> layer x v = Ok (x v).
Definition unaffected {R : CRing} (Ps : list part) (layer : (Z -> tensor R) -> Z -> result (tensor R)) : Prop :=
  forall x x' v, agree Ps x x' -> ~ stranger Ps v -> layer x v = layer x' v.
Definition keeps_strangers_out {R : CRing} (Ps : list part) (layer : (Z -> tensor R) -> Z -> result (tensor R)) : Prop :=
  passes_through Ps layer /\ unaffected Ps layer.

(** The data movement layers, whatever the partitions, also those that the layers
    refuse; the gradients with the inputs of the forward pass given. *)
Definition C91_movement_statement : Prop :=
  forall (R : CRing) (Px Py : part) (same ts td pb : bool) dt rg,
    keeps_strangers_out [Px; Py] (@broadcast_layer R Px Py same ts td pb dt rg) /\
    keeps_strangers_out [Px; Py] (@sum_reduce_layer R Px Py same ts td pb dt rg) /\
    (forall x, keeps_strangers_out [Px; Py] (@broadcast_layer_backward R Px Py same ts td pb dt rg x)) /\
    (forall x, keeps_strangers_out [Px; Py] (@sum_reduce_layer_backward R Px Py same ts td pb dt rg x)) /\
    (forall axes, keeps_strangers_out [Px] (@all_sum_reduce_layer R Px (Some axes) None)).

(** The layers with parameters; the torch layer inside is any function. *)
Definition C91_layers_statement : Prop :=
  forall (R : CRing) (Px Py Pw : part) (w : window) (groups : Z) (use_bias : bool) dt dt' dtw dtb rg rg' rgw rgb weight bias,
    (forall same_xw same_wy,
       keeps_strangers_out [Px; Py; Pw]
         (@linear_forward R Px Py Pw use_bias same_xw same_wy dt dt' rg rg' weight bias)) /\
    keeps_strangers_out [Px; Py; Pw] (@channel_conv_forward R Px Py Pw w groups use_bias dt dt' rg rg' weight bias) /\
    (forall shape,
       let layer := fun x e => @general_conv_forward R Px Py Pw w groups use_bias dt dt' dtw dtb rg rg' rgw rgb weight bias shape x e in
       (forall e, passes_through [Px; Py; Pw] (fun x => layer x e)) /\
       (forall x x' e e' v, agree [Px; Py; Pw] x x' -> agree [Px; Py; Pw] e e' -> ~ stranger [Px; Py; Pw] v ->
          layer x e v = layer x' e' v)) /\
    (forall torch shape,
       let layer := fun x e => @conv_forward_by R Px w use_bias dt rg torch weight bias shape x e in
       (forall e, passes_through [Px] (fun x => layer x e)) /\
       (forall x x' e e' v, agree [Px] x x' -> agree [Px] e e' -> ~ stranger [Px] v -> layer x e v = layer x' e' v)).

(** The losses: nobody is affected by a stranger, but a stranger that calls one gets
    an AttributeError, and none can construct a batch normalisation layer. *)
Definition C91_loss_statement : Prop :=
  forall (R : CRing) (A : arith R) f (P : part) (kl : bool) r dt rg x x' t t' v,
    agree [P] x x' -> agree [P] t t' -> ~ stranger [P] v ->
    loss_forward A f P kl r dt rg x t v = loss_forward A f P kl r dt rg x' t' v.

Definition C91_refuted_statement : Prop :=
  (exists (P : part) v, part_ok P /\ stranger [P] v /\
     forall (R : CRing) (A : arith R) f (kl : bool) r dt rg x t l,
       loss_forward A f P kl r dt rg x t v <> Ok l) /\
  (exists (P : part) v, part_ok P /\ stranger [P] v /\
     forall n affine track m, batchnorm_module P n affine track v <> Ok m).

(** ** Proofs *)

Lemma rmap_pointwise {A B} (f g : A -> result B) l : (forall a, In a l -> f a = g a) -> rmap f l = rmap g l.
Proof.
  induction l as [|a l IH]; intros H; [reflexivity|]. cbn [rmap]. rewrite (H a) by now left.
  now rewrite IH by (intros b Hb; apply H; now right).
Qed.
Lemma contributions_pointwise {A} g (f h : Z -> option A) : (forall m, f m = h m) -> contributions g f = contributions g h.
Proof. intros H. unfold contributions. apply rmap_pointwise. intros m _. now rewrite H. Qed.

Lemma stranger_cons P Ps v : stranger (P :: Ps) v <-> ~ In v (p_ranks P) /\ stranger Ps v.
Proof.
  split.
  - intros H. split; [apply H; now left|]. intros Q HQ. apply H. now right.
  - intros [H1 H2] Q [<-|HQ]; auto.
Qed.
Lemma stranger_nil v : stranger [] v.
Proof. intros P []. Qed.

Lemma on_comm_some a g : on_comm a g = true -> a <> None.
Proof. destruct a; [discriminate|]. cbn. discriminate. Qed.
Lemma same_comm_some a b : same_comm a b = true -> a <> None.
Proof. destruct a; [discriminate|]. cbn. discriminate. Qed.

Section Groups.
  Variables snd_p rcv_p : Z -> option (list Z).

  Lemma structure_ext st st' v : (forall m, snd_p m <> None -> st m = st' m) ->
    broadcast_tensor_structure st snd_p rcv_p v = broadcast_tensor_structure st' snd_p rcv_p v.
  Proof.
    intros H. unfold broadcast_tensor_structure. destruct (rcv_p v) as [g|]; auto.
    destruct (same_comm (snd_p v) (Some g)) eqn:E; [rewrite H; [reflexivity|now apply same_comm_some in E]|].
    assert (C : forall A (own : tstruct -> A) init m, st_contrib st snd_p rcv_p g own init m = st_contrib st' snd_p rcv_p g own init m).
    { intros A own init m. unfold st_contrib. destruct (on_comm (snd_p m) g) eqn:O; auto. rewrite H; auto. eapply on_comm_some; eauto. }
    assert (M : forall own init, iallreduce_max g (st_contrib st snd_p rcv_p g own init) = iallreduce_max g (st_contrib st' snd_p rcv_p g own init)).
    { intros own init. unfold iallreduce_max. now rewrite (contributions_pointwise g _ _ (C Z own init)). }
    rewrite !M. destruct (iallreduce_max g _); auto. cbn [rbind]. destruct (iallreduce_max g _); auto. cbn [rbind].
    destruct (iallreduce_max g _); auto. cbn [rbind]. unfold iallreduce_max_array.
    now rewrite (contributions_pointwise g _ _ (C _ _ _)).
  Qed.

  Context {R : CRing}.
  Variable pb : bool.
  Variables is is' os os' : Z -> list Z.
  Hypothesis HI : forall m, snd_p m <> None -> is m = is' m.
  Hypothesis HO : forall m, os m = os' m.

  Lemma ireduce_ext g (c c' : Z -> option (tensor R)) b : (forall m, c m = c' m) -> ireduce g c b = ireduce g c' b.
  Proof. intros H. unfold ireduce. now rewrite (contributions_pointwise g c c' H). Qed.

  Lemma broadcast_ext (x x' : Z -> tensor R) v : (forall m, snd_p m <> None -> x m = x' m) -> x v = x' v ->
    broadcast_forward snd_p rcv_p pb os x v = broadcast_forward snd_p rcv_p pb os' x' v.
  Proof.
    intros H Hv. unfold broadcast_forward. rewrite Hv, HO. destruct (ModelCollectives.zero_volume pb (tshape (x' v))); auto. cbn [rbind].
    destruct (rcv_p v) as [g|]; auto. destruct (same_comm _ _); auto. unfold ibcast. destruct g as [|r g']; auto.
    destruct (on_comm (snd_p r) (r :: g')) eqn:O; auto. rewrite H; auto. eapply on_comm_some; eauto.
  Qed.

  Lemma sum_reduce_ext (x x' : Z -> tensor R) v : (forall m, snd_p m <> None -> x m = x' m) -> x v = x' v -> is v = is' v ->
    sum_reduce_forward snd_p rcv_p pb is os x v = sum_reduce_forward snd_p rcv_p pb is' os' x' v.
  Proof.
    intros H Hv Hi. unfold sum_reduce_forward. rewrite Hv, Hi, HO. destruct (ModelCollectives.zero_volume pb (tshape (x' v))); auto. cbn [rbind].
    destruct (rcv_p v) as [g|]; auto.
    match goal with |- context [ireduce g ?c ?b] => match goal with |- _ = rbind (ireduce g ?c' _) _ =>
      rewrite (ireduce_ext g c c' b) end end; auto.
    intros m. destruct (on_comm (snd_p m) g) eqn:O; [rewrite H; auto; eapply on_comm_some; eauto|]. now rewrite HO.
  Qed.

  Lemma broadcast_back_ext (x x' : Z -> tensor R) v : (forall m, rcv_p m <> None -> x m = x' m) -> x v = x' v -> is v = is' v ->
    broadcast_backward snd_p rcv_p pb is os x v = broadcast_backward snd_p rcv_p pb is' os' x' v.
  Proof.
    intros H Hv Hi. unfold broadcast_backward. rewrite Hv, Hi, HO. destruct (ModelCollectives.zero_volume pb (tshape (x' v))); auto. cbn [rbind].
    destruct (snd_p v) as [g|]; auto.
    match goal with |- context [ireduce g ?c ?b] => match goal with |- _ = rbind (ireduce g ?c' _) _ =>
      rewrite (ireduce_ext g c c' b) end end; auto.
    intros m. destruct (on_comm (rcv_p m) g) eqn:O; [rewrite H; auto; eapply on_comm_some; eauto|].
    destruct (on_comm (snd_p m) g) eqn:O'; auto. rewrite HI; auto. eapply on_comm_some; eauto.
  Qed.

  Lemma sum_reduce_back_ext (x x' : Z -> tensor R) v : (forall m, rcv_p m <> None -> x m = x' m) -> x v = x' v -> is v = is' v ->
    sum_reduce_backward snd_p rcv_p pb is x v = sum_reduce_backward snd_p rcv_p pb is' x' v.
  Proof.
    intros H Hv Hi. unfold sum_reduce_backward. rewrite Hv, Hi. destruct (ModelCollectives.zero_volume pb (tshape (x' v))); auto. cbn [rbind].
    destruct (snd_p v) as [g|]; auto. destruct (same_comm _ _); auto. unfold ibcast. destruct g as [|r g']; auto.
    destruct (on_comm (rcv_p r) (r :: g')) eqn:O; auto. rewrite H; auto. eapply on_comm_some; eauto.
  Qed.
End Groups.

(** A creation that gives the workers outside no group. *)
Definition quiet (Px Py : part) (create : Z -> result cross) : Prop :=
  forall m, send_groups create m <> None \/ recv_groups create m <> None -> In m (p_ranks Px) \/ In m (p_ranks Py).

Lemma quiet_broadcast Px Py ts td : quiet Px Py (create_broadcast_partition_to Px Py ts td).
Proof.
  intros m H. destruct (is_active (p_ranks Px) m || is_active (p_ranks Py) m) eqn:E.
  - apply orb_true_iff in E as [E|E]; apply is_active_spec in E; auto.
  - exfalso. unfold send_groups, recv_groups, create_broadcast_partition_to in H. cbv zeta in H. rewrite E in H. cbn in H. tauto.
Qed.
Lemma quiet_reduction Px Py ts td : quiet Px Py (create_reduction_partition_to Px Py ts td).
Proof.
  intros m H. destruct (is_active (p_ranks Px) m || is_active (p_ranks Py) m) eqn:E.
  - apply orb_true_iff in E as [E|E]; apply is_active_spec in E; auto.
  - exfalso. unfold send_groups, recv_groups, create_reduction_partition_to in H. cbv zeta in H. rewrite E in H. cbn in H. tauto.
Qed.

Section Movement.
  Context {R : CRing}.
  Variables (Px Py : part) (same ts td pb : bool) (dt : Z -> Z) (rg : Z -> bool).

  Lemma out_structs_ext create (x x' : Z -> tensor R) u : quiet Px Py create ->
    (forall m, In m (p_ranks Px) \/ In m (p_ranks Py) -> x m = x' m) ->
    out_structs create (structs_of dt rg x) u = out_structs create (structs_of dt rg x') u.
  Proof.
    intros Q H. unfold out_structs. rewrite (structure_ext _ _ (structs_of dt rg x) (structs_of dt rg x')); auto.
    intros m Hm. unfold structs_of. rewrite H; auto.
  Qed.

  (** For a worker that holds the same in both; the others matter only as members. *)
  Lemma broadcast_layer_ext (x x' : Z -> tensor R) v :
    (forall m, In m (p_ranks Px) \/ In m (p_ranks Py) -> x m = x' m) -> x v = x' v ->
    broadcast_layer Px Py same ts td pb dt rg x v = broadcast_layer Px Py same ts td pb dt rg x' v.
  Proof.
    intros H Hv. unfold broadcast_layer, layer_forward. rewrite Hv. destruct (is_identity _ _ _ _ _); auto.
    destruct (negb _); auto. pose proof (quiet_broadcast Px Py ts td) as Q.
    set (create := create_broadcast_partition_to Px Py ts td) in *. destruct (create v); auto. cbn [rbind].
    rewrite (structure_ext _ _ (structs_of dt rg x) (structs_of dt rg x')) by (intros m Hm; unfold structs_of; rewrite H; auto).
    destruct (broadcast_tensor_structure _ _ _ _); auto. cbn [rbind].
    apply broadcast_ext; auto. intros m. apply out_structs_ext; auto.
  Qed.

  Lemma sum_reduce_layer_ext (x x' : Z -> tensor R) v :
    (forall m, In m (p_ranks Px) \/ In m (p_ranks Py) -> x m = x' m) -> x v = x' v ->
    sum_reduce_layer Px Py same ts td pb dt rg x v = sum_reduce_layer Px Py same ts td pb dt rg x' v.
  Proof.
    intros H Hv. unfold sum_reduce_layer, layer_forward. rewrite Hv. destruct (is_identity _ _ _ _ _); auto.
    destruct (negb _); auto. pose proof (quiet_reduction Px Py ts td) as Q.
    set (create := create_reduction_partition_to Px Py ts td) in *. destruct (create v); auto. cbn [rbind].
    rewrite (structure_ext _ _ (structs_of dt rg x) (structs_of dt rg x')) by (intros m Hm; unfold structs_of; rewrite H; auto).
    destruct (broadcast_tensor_structure _ _ _ _); auto. cbn [rbind].
    apply sum_reduce_ext; auto; [|now rewrite Hv]. intros m. apply out_structs_ext; auto.
  Qed.

  Lemma broadcast_layer_back_ext (x dy dy' : Z -> tensor R) v :
    (forall m, In m (p_ranks Px) \/ In m (p_ranks Py) -> dy m = dy' m) -> dy v = dy' v ->
    broadcast_layer_backward Px Py same ts td pb dt rg x dy v = broadcast_layer_backward Px Py same ts td pb dt rg x dy' v.
  Proof.
    intros H Hv. unfold broadcast_layer_backward, layer_backward. rewrite Hv. destruct (is_identity _ _ _ _ _); auto.
    destruct (negb _); auto. pose proof (quiet_broadcast Px Py ts td) as Q.
    set (create := create_broadcast_partition_to Px Py ts td) in *. destruct (create v); auto. cbn [rbind].
    apply broadcast_back_ext; auto.
  Qed.

  Lemma sum_reduce_layer_back_ext (x dy dy' : Z -> tensor R) v :
    (forall m, In m (p_ranks Px) \/ In m (p_ranks Py) -> dy m = dy' m) -> dy v = dy' v ->
    sum_reduce_layer_backward Px Py same ts td pb dt rg x dy v = sum_reduce_layer_backward Px Py same ts td pb dt rg x dy' v.
  Proof.
    intros H Hv. unfold sum_reduce_layer_backward, layer_backward. rewrite Hv. destruct (is_identity _ _ _ _ _); auto.
    destruct (negb _); auto. pose proof (quiet_reduction Px Py ts td) as Q.
    set (create := create_reduction_partition_to Px Py ts td) in *. destruct (create v); auto. cbn [rbind].
    apply sum_reduce_back_ext; auto.
  Qed.
End Movement.

Lemma agree2 {A} Px Py (a b : Z -> A) : agree [Px; Py] a b ->
  forall m, In m (p_ranks Px) \/ In m (p_ranks Py) -> a m = b m.
Proof. intros H m [I|I]; eapply H; eauto; cbn; auto. Qed.
Lemma member2 Px Py v : ~ stranger [Px; Py] v -> In v (p_ranks Px) \/ In v (p_ranks Py).
Proof.
  intros H. destruct (in_dec Z.eq_dec v (p_ranks Px)); auto. destruct (in_dec Z.eq_dec v (p_ranks Py)); auto.
  exfalso. apply H. rewrite !stranger_cons. auto using stranger_nil.
Qed.
Lemma member1 P v : ~ stranger [P] v -> In v (p_ranks P).
Proof.
  intros H. destruct (in_dec Z.eq_dec v (p_ranks P)); auto. exfalso. apply H. rewrite stranger_cons. auto using stranger_nil.
Qed.
Lemma member3 P Q S v : ~ stranger [P; Q; S] v -> In v (p_ranks P) \/ In v (p_ranks Q) \/ In v (p_ranks S).
Proof.
  intros H. destruct (in_dec Z.eq_dec v (p_ranks P)); auto. destruct (in_dec Z.eq_dec v (p_ranks Q)); auto.
  destruct (in_dec Z.eq_dec v (p_ranks S)); auto. exfalso. apply H. rewrite !stranger_cons. auto using stranger_nil.
Qed.

Lemma layer_backward_outside R create Px Py same ts td pb dt rg fn (x dy : Z -> tensor R) v :
  ~ In v (p_ranks Px) -> ~ In v (p_ranks Py) ->
  layer_backward create Px Py same ts td pb dt rg fn x dy v = Ok (dy v).
Proof.
  intros H1 H2. unfold layer_backward. destruct (is_identity same Px ts td v); auto.
  now rewrite inactive_or.
Qed.

Lemma C91_movement_proof : C91_movement_statement.
Proof.
  intros R Px Py same ts td pb dt rg. split; [|split; [|split; [|split]]].
  - split.
    + intros x v H. rewrite !stranger_cons in H. now apply layer_forward_outside.
    + intros x x' v H M. apply broadcast_layer_ext; [now apply agree2|]. now apply (agree2 _ _ _ _ H), member2.
  - split.
    + intros x v H. rewrite !stranger_cons in H. now apply layer_forward_outside.
    + intros x x' v H M. apply sum_reduce_layer_ext; [now apply agree2|]. now apply (agree2 _ _ _ _ H), member2.
  - intros x0. split.
    + intros x v H. rewrite !stranger_cons in H. now apply layer_backward_outside.
    + intros x x' v H M. apply broadcast_layer_back_ext; [now apply agree2|]. now apply (agree2 _ _ _ _ H), member2.
  - intros x0. split.
    + intros x v H. rewrite !stranger_cons in H. now apply layer_backward_outside.
    + intros x x' v H M. apply sum_reduce_layer_back_ext; [now apply agree2|]. now apply (agree2 _ _ _ _ H), member2.
  - intros axes. split.
    + intros x v H. rewrite stranger_cons in H. unfold all_sum_reduce_layer, all_sum_reduce_axes. cbn [rbind].
      now rewrite (proj2 (is_active_false _ v) (proj1 H)).
    + intros x x' v H M. apply member1 in M. assert (E : forall m, In m (p_ranks Px) -> x m = x' m) by (intros; eapply H; cbn; eauto).
      unfold all_sum_reduce_layer, all_sum_reduce_axes. cbn [rbind]. rewrite (E v M). destruct (negb _); auto. destruct (_ =? 1); auto.
      destruct (create_allreduction_partition Px axes v); auto. cbn [rbind]. unfold all_sum_reduce_forward.
      destruct (allreduce_groups Px axes v) as [g|]; auto. rewrite (E v M). apply ireduce_ext. intros m.
      destruct (on_comm (allreduce_groups Px axes m) g) eqn:O; auto. rewrite E; auto.
      apply on_comm_some in O. unfold allreduce_groups, create_allreduction_partition in O.
      apply is_active_spec. destruct (is_active (p_ranks Px) m) eqn:EA; auto. exfalso. apply O.
      unfold index_in. unfold is_active in EA. destruct (rank_in (p_ranks Px) m); [discriminate|]. reflexivity.
Qed.

Theorem C91_movement : C91_movement_statement.
Proof. exact C91_movement_proof. Qed.

Section Work.
  Context {R : CRing}.

  Variables (Px Pw Py : part) (same_xw same_wy ts : bool) (dt dt' : Z -> Z) (rg rg' : Z -> bool).
  Variable local : Z -> tensor R -> result (tensor R).
  Variables x x' : Z -> tensor R.
  Hypothesis E : forall m, In m (p_ranks Px) \/ In m (p_ranks Py) \/ In m (p_ranks Pw) -> x m = x' m.

  Lemma work_local_ext u : In u (p_ranks Px) \/ In u (p_ranks Py) \/ In u (p_ranks Pw) ->
    work_local Px Pw same_xw dt rg local x u = work_local Px Pw same_xw dt rg local x' u.
  Proof.
    intros Hu. unfold work_local.
    assert (B : broadcast_layer Px Pw same_xw false false true dt rg x u = broadcast_layer Px Pw same_xw false false true dt rg x' u).
    { apply broadcast_layer_ext; [|exact (E u Hu)]. intros m [I|I]; apply E; [left; exact I|right; right; exact I]. }
    rewrite B. reflexivity.
  Qed.

  Lemma work_contribution_ext u : In u (p_ranks Px) \/ In u (p_ranks Py) \/ In u (p_ranks Pw) ->
    work_contribution Px Pw same_xw dt rg local x u = work_contribution Px Pw same_xw dt rg local x' u.
  Proof. intros Hu. unfold work_contribution. rewrite (work_local_ext u Hu). reflexivity. Qed.

  Lemma work_ext v : In v (p_ranks Px) \/ In v (p_ranks Py) \/ In v (p_ranks Pw) ->
    work_forward Px Pw Py same_xw same_wy ts dt dt' rg rg' local x v = work_forward Px Pw Py same_xw same_wy ts dt dt' rg rg' local x' v.
  Proof.
    intros M.
    pose proof (sum_reduce_layer_ext Pw Py same_wy ts false true dt' rg'
      (work_contribution Px Pw same_xw dt rg local x) (work_contribution Px Pw same_xw dt rg local x') v
      ltac:(intros m [I|I]; apply work_contribution_ext; [right; right; exact I|right; left; exact I])
      (work_contribution_ext v M)) as B.
    unfold work_forward. rewrite B, (E v M), (work_local_ext v M). reflexivity.
  Qed.
End Work.

Lemma recast_x_ranks k Px Pw v P : recast_x k Px Pw v = Ok P -> p_ranks P = p_ranks Px.
  Proof.
    unfold recast_x, create_cartesian_topology. destruct (if is_active _ _ then _ else _); [discriminate|].
    destruct (_ =? _); [|discriminate]. now intros [= <-].
  Qed.
  Lemma recast_y_ranks k Py Pw v P : recast_y k Py Pw v = Ok P -> p_ranks P = p_ranks Py.
  Proof.
    unfold recast_y, create_cartesian_topology. destruct (if is_active _ _ then _ else _); [discriminate|].
    destruct (_ =? _); [|discriminate]. now intros [= <-].
  Qed.
Lemma agree3 {A} P Q S (a b : Z -> A) : agree [P; Q; S] a b ->
  forall m, In m (p_ranks P) \/ In m (p_ranks Q) \/ In m (p_ranks S) -> a m = b m.
Proof. intros H m [I|[I|I]]; eapply H; eauto; cbn; auto. Qed.

Lemma inactive_stranger Px Py Pw v : stranger [Px; Py; Pw] v -> inactive Px Py Pw v = true.
Proof.
  rewrite !stranger_cons. intros (H1 & H2 & H3 & _). unfold inactive.
  now rewrite (proj2 (is_active_false _ v) H1), (proj2 (is_active_false _ v) H2), (proj2 (is_active_false _ v) H3).
Qed.

Lemma C91_layers_proof : C91_layers_statement.
Proof.
  intros R Px Py Pw w groups use_bias dt dt' dtw dtb rg rg' rgw rgb weight bias. split; [|split; [|split]].
  - intros same_xw same_wy. split.
    + intros x v H. apply inactive_stranger in H. unfold inactive in H. unfold linear_forward, work_forward. now rewrite H.
    + intros x x' v H M. apply member3 in M. pose proof (agree3 _ _ _ _ _ H) as E. apply work_ext; assumption.
  - split.
    + intros x v H. unfold channel_conv_forward. now rewrite inactive_stranger.
    + intros x x' v H M. apply member3 in M. pose proof (agree3 _ _ _ _ _ H) as E. unfold channel_conv_forward.
      rewrite (E v M). destruct (inactive _ _ _ _); [reflexivity|].
      destruct (recast_x _ _ _ _) eqn:RX; cbn [rbind]; [|reflexivity]. cbn [rbind]. destruct (recast_y _ _ _ _) eqn:RY; cbn [rbind]; [|reflexivity]. cbn [rbind].
      destruct (serial _ _); [reflexivity|]. destruct (partner_missing _ _); [reflexivity|].
      apply work_ext; rewrite (recast_x_ranks _ _ _ _ _ RX), (recast_y_ranks _ _ _ _ _ RY); try assumption.
  - intros shape layer. split.
    + intros e x v H. unfold layer, general_conv_forward. now rewrite inactive_stranger.
    + intros x x' e e' v H He M. apply member3 in M. pose proof (agree3 _ _ _ _ _ H) as E. pose proof (agree3 _ _ _ _ _ He) as E'.
      unfold layer, general_conv_forward. rewrite (E v M). destruct (inactive _ _ _ _); [reflexivity|].
      destruct (recast_x _ _ _ _) eqn:RX; cbn [rbind]; [|reflexivity]. cbn [rbind]. destruct (recast_y _ _ _ _) eqn:RY; cbn [rbind]; [|reflexivity]. cbn [rbind].
      destruct (serial _ _); [reflexivity|]. destruct (partner_missing _ _); [reflexivity|].
      apply work_ext; rewrite (recast_x_ranks _ _ _ _ _ RX), (recast_y_ranks _ _ _ _ _ RY); try assumption.
      intros m Hm. unfold general_input. now rewrite (E m Hm), (E' m Hm).
  - intros torch shape layer. split.
    + intros e x v H. rewrite stranger_cons in H. unfold layer, conv_forward_by.
      now rewrite (proj2 (is_active_false _ v) (proj1 H)).
    + intros x x' e e' v H He M. apply member1 in M.
      assert (E : x v = x' v) by (eapply H; cbn; eauto). assert (E' : e v = e' v) by (eapply He; cbn; eauto).
      unfold layer, conv_forward_by, feature_output_by. now rewrite E, E'.
Qed.

Theorem C91_layers : C91_layers_statement.
Proof. exact C91_layers_proof. Qed.

Lemma zsum_pointwise {A} (f g : A -> Z) l : (forall a, In a l -> f a = g a) -> zsum (map f l) = zsum (map g l).
Proof. intros H. f_equal. now apply map_ext_in. Qed.

Lemma root_partition_ranks P P0 v : In v (p_ranks P) -> root_partition P = Ok P0 -> forall m, In m (p_ranks P0) -> In m (p_ranks P).
Proof.
  unfold root_partition, create_cartesian_topology. destruct (_ =? _); [|discriminate]. intros Hv [= <-] m. cbn.
  destruct (p_ranks P); [destruct Hv|]. cbn. tauto.
Qed.

Lemma C91_loss_proof : C91_loss_statement.
Proof.
  intros R A f P kl r dt rg x x' t t' v H Ht M. apply member1 in M.
  assert (E : forall m, In m (p_ranks P) -> x m = x' m) by (intros; eapply H; cbn; eauto).
  assert (E' : forall m, In m (p_ranks P) -> t m = t' m) by (intros; eapply Ht; cbn; eauto).
  assert (N : normalization_factor P r x = normalization_factor P r x').
  { unfold normalization_factor. destruct r; auto; apply zsum_pointwise; intros u Hu; unfold own_count; now rewrite (E u Hu). }
  assert (S : forall m, In m (p_ranks P) -> reshaped f x t m = reshaped f x' t' m).
  { intros m Hm. unfold reshaped. now rewrite (E m Hm), (E' m Hm). }
  unfold loss_forward. rewrite (E v M), (E' v M). destruct (negb (accepts kl r)); [reflexivity|].
  destruct (root_partition P) as [P0|] eqn:RP; cbn [rbind]; [|reflexivity]. cbn [rbind]. destruct (negb _); [reflexivity|].
  assert (L : sum_reduce_layer P P0 false false false true dt rg (reshaped f x t) v =
              sum_reduce_layer P P0 false false false true dt rg (reshaped f x' t') v).
  { apply sum_reduce_layer_ext; auto. intros m [I|I]; auto. apply S. eapply root_partition_ranks; eauto. }
  rewrite L, N. reflexivity.
Qed.

Theorem C91_loss_partial : C91_loss_statement.
Proof. exact C91_loss_proof. Qed.

Definition o_P : part := mkpart 0 [2; 0] [1; 2].
Lemma o_ok : part_ok o_P.
Proof. split; [repeat constructor; cbn; lia|]. split; [discriminate|]. split; [repeat constructor|reflexivity]. Qed.
Lemma o_stranger : stranger [o_P] 1.
Proof. rewrite stranger_cons. split; [cbn; lia|apply stranger_nil]. Qed.

Lemma C91_refuted_proof : C91_refuted_statement.
Proof.
  split; exists o_P, 1; (split; [exact o_ok|split; [exact o_stranger|]]).
  - intros R A f kl r dt rg x t l. unfold loss_forward. destruct (negb (accepts kl r)); discriminate.
  - intros n affine track m. discriminate.
Qed.

Theorem C91_outside_refuted : C91_refuted_statement.
Proof. exact C91_refuted_proof. Qed.

(** Workers 2 and 0 add their values on worker 2 while worker 1 holds anything. *)
Definition o_to : part := mkpart 0 [2] [1; 1].
Definition o_x (a : Z) (v : Z) : tensor Zring := @mkt Zring (if v =? 1 then [a; a] else [1; 2]) (fun i => if v =? 1 then a else 10 * v + nth 1 i 0).
Example C91_example :
  agree [o_P; o_to] (o_x 5) (o_x 6) /\ stranger [o_P; o_to] 1 /\ ~ stranger [o_P; o_to] 2 /\
  (let y a v := match sum_reduce_layer o_P o_to false false false true (fun _ => 0) (fun _ => false) (o_x a) v with
                | Ok t => Some (tshape t, map (tat t) [[0; 0]; [0; 1]]) | Raise _ => None end in
   map (y 5) [2; 0; 1] = [Some ([1; 2], [20; 22]); Some ([1; 0], [0; 0]); Some ([5; 5], [5; 5])] /\
   map (y 6) [2; 0; 1] = [Some ([1; 2], [20; 22]); Some ([1; 0], [0; 0]); Some ([6; 6], [6; 6])]).
Proof.
  split; [|split; [|split]].
  - intros u P [<-|[<-|[]]]; cbn; intros I; repeat destruct I as [<-|I]; try reflexivity; destruct I.
  - rewrite !stranger_cons. cbn. split; [lia|]. split; [lia|]. apply stranger_nil.
  - intros H. apply (H o_P); cbn; auto.
  - vm_compute. split; reflexivity.
Qed.

(** The loss of C35's example for workers 7, 5, 6, 4 when worker 9 holds something. *)
Example C91_example_loss :
  let with_9 (x : Z -> tensor Qring) v := if v =? 9 then @mkt Qring [8] (fun _ => Q2Qc (3 # 1)) else x v in
  agree [lP] (with_9 (give lP lL lG)) (give lP lL lG) /\ stranger [lP] 9 /\
  loss_forward Qarith lf lP true RMean (fun _ => 0) (fun _ => false) (with_9 (give lP lL lG)) (give lP lL lT) 7 =
  loss_forward Qarith lf lP true RMean (fun _ => 0) (fun _ => false) (give lP lL lG) (give lP lL lT) 7.
Proof.
  intros with_9. assert (H : agree [lP] (with_9 (give lP lL lG)) (give lP lL lG)).
  { intros u P [<-|[]]; cbn [lP p_ranks In]; intros I; unfold with_9; destruct (u =? 9) eqn:E; auto. apply Z.eqb_eq in E. lia. }
  split; [exact H|]. split.
  - rewrite stranger_cons. split; [cbn; lia|apply stranger_nil].
  - apply C91_loss_partial; auto; [intros u P _ _; reflexivity|]. intros S. apply (S lP); cbn; auto.
Qed.

Print Assumptions C91_movement.
Print Assumptions C91_layers.
Print Assumptions C91_loss_partial.
Print Assumptions C91_outside_refuted.
