(** Ownership of the trainable parameters. *)

From Coq Require Import String.
From Verif Require Import Prelude SpecIndex SpecLayout SpecPartition SpecHalo ModelSlicing ModelDecomposition ModelPartition ProofSlicing
  ProofDecomposition ProofPartition Ring Tensor ModelCollectives ProofCollectives ModelUtilities ModelHaloMixin ModelFeatureLayer SpecFeature
  ProofWork ModelLinear PropLinear ModelConv ProofConv ProofConvParts PropConv PropConvGeneral ModelBatchNorm ProofBatchNorm PropBatchNorm
  SpecParameters ModelParameters.

(** ** C73 *)

(** What [parameters()] yields on worker [v], if its constructor returns. *)
Definition held (make : Z -> result module) (v : Z) : list (string * list Z) :=
  match make v with Ok m => named_parameters m | Raise _ => [] end.

(** The constructor returns on worker [v]; and then the buffers of the layer are empty. *)
Definition returns (make : Z -> result module) (v : Z) : Prop := exists m, make v = Ok m.
Definition made (make : Z -> result module) (v : Z) : Prop :=
  exists m, make v = Ok m /\ forall name sh, In (name, sh) (named_buffers m) -> zprod sh = 0.

Definition with_bias (use_bias : bool) (all : list (string * list Z)) : list (string * list Z) :=
  if use_bias then all else firstn 1 all.

Definition C73_linear_statement : Prop :=
  forall (Pw : part) (fi fo n_in n_out : Z) (use_bias : bool),
  part_ok Pw -> p_shape Pw = [fo; fi] -> 0 <= n_in -> 0 <= n_out ->
  parameters_are (held (fun v => Ok (linear_module Pw n_in n_out use_bias v)))
    (with_bias use_bias [("sublinear.weight", [n_out; n_in]); ("sublinear.bias", [n_out])]%string).

(** The sizes of a convolution; the groups divide the channels, as torch demands of the
    sequential layer. *)
Definition conv_sizes (w : window) (groups cin cout : Z) : Prop :=
  nonneg_shape (w_kernel w) /\ 0 <= cin /\ 0 <= cout /\ 0 < groups /\ (groups | cin) /\ (groups | cout).

Definition conv_parameters (w : window) (groups cin cout : Z) (use_bias : bool) : list (string * list Z) :=
  with_bias use_bias [("weight", cout :: cin / groups :: w_kernel w); ("bias", [cout])]%string.

Definition C73_feature_statement : Prop :=
  forall (P : part) (w : window) (groups cin cout : Z) (use_bias : bool),
  part_ok P -> conv_sizes w groups cin cout ->
  let make := feature_module P w groups cin cout use_bias in
  (forall v, made make v) /\ parameters_are (held make) (conv_parameters w groups cin cout use_bias).

(** The constructor returns if the channels are not grouped or not distributed (and a
    lone worker of P_w is the only worker).  Whenever it returns on all workers: *)
Definition C73_channel_statement : Prop :=
  forall (Px Py Pw : part) (co ci : Z) (w : window) (groups cin cout : Z) (use_bias : bool),
  conv_partitions Px Py Pw co ci (repeat 1 (length (w_kernel w))) -> conv_sizes w groups cin cout ->
  let make := channel_module Px Py Pw w groups cin cout use_bias in
  (plain groups Px Py Pw -> forall v, returns make v) /\
  ((forall v, returns make v) -> (forall v, made make v) /\ parameters_are (held make) (conv_parameters w groups cin cout use_bias)).

Definition C73_general_statement : Prop :=
  forall (Px Py Pw : part) (co ci : Z) (S : list Z) (w : window) (groups cin cout : Z) (use_bias : bool),
  conv_partitions Px Py Pw co ci S -> length S = length (w_kernel w) -> conv_sizes w groups cin cout ->
  let make := general_module Px Py Pw w groups cin cout use_bias in
  (plain groups Px Py Pw -> forall v, returns make v) /\
  ((forall v, returns make v) -> (forall v, made make v) /\ parameters_are (held make) (conv_parameters w groups cin cout use_bias)).

(** The parameters of batch normalisation have as many dimensions as the input. *)
Definition C73_batchnorm_statement : Prop :=
  forall (P : part) (num_features : Z) (affine track : bool),
  part_ok P -> (2 <= length (p_shape P))%nat -> 0 <= num_features ->
  let s := 1 :: num_features :: repeat 1 (length (p_shape P) - 2) in
  let make := batchnorm_module P num_features affine track in
  (forall v, In v (p_ranks P) -> exists m, make v = Ok m) /\
  parameters_are (held make) (if affine then [("gamma", s); ("beta", s)]%string else []).

(** ** Proofs *)

Lemma owned_by hd name s ps (idx_of : Z -> option (list Z)) :
  nonneg_shape s -> pos_shape ps -> length s = length ps ->
  (forall idx, valid_index ps idx -> exists v, idx_of v = Some idx) ->
  (forall v idx, idx_of v = Some idx -> valid_index ps idx) ->
  (forall v v' idx, idx_of v = Some idx -> idx_of v' = Some idx -> v = v') ->
  (forall v sh, In (name, sh) (hd v) <-> exists idx, idx_of v = Some idx /\ sh = block_shape (balanced s ps) idx) ->
  owned_once hd name s.
Proof.
  intros Hs Hp Hl Hex Hv Hinj Hh. set (L := balanced s ps).
  assert (HL : layout_ok L) by now apply balanced_ok.
  assert (EW : layout_workers L = ps) by now apply balanced_workers.
  assert (ES : layout_shape L = s) by now apply balanced_shape.
  assert (Len : forall idx, valid_index ps idx -> length idx = length L).
  { intros idx Hi. apply valid_index_length in Hi. rewrite <- layout_workers_length, EW. exact Hi. }
  exists (fun v => match idx_of v with Some idx => block_lo L idx | None => [] end). split.
  - intros g Hg. rewrite <- ES in Hg. destruct (layout_tiles_exists L g HL Hg) as (idx & Hi & Hb). rewrite EW in Hi.
    destruct (Hex idx Hi) as [v Ev]. exists v. split.
    + exists (block_shape L idx). split; [apply Hh; eauto|]. rewrite Ev, <- block_hi_lo by auto. exact Hb.
    + intros v' (sh & Hin & Hb'). apply Hh in Hin as (idx' & Ev' & ->). fold L in Hb'. rewrite Ev', <- block_hi_lo in Hb' by eauto.
      assert (idx = idx') by (eapply layout_tiles_unique; [exact HL| | |exact Hb|exact Hb']; rewrite EW; eauto). subst idx'. eauto.
  - intros v sh Hin. apply Hh in Hin as (idx & Ev & ->). fold L. rewrite Ev. pose proof (Hv _ _ Ev) as Hi. split.
    + rewrite block_lo_length, block_shape_length by auto. reflexivity.
    + intros g Hb. rewrite <- block_hi_lo in Hb by auto. rewrite <- ES. eapply layout_tiles_inside; eauto. now rewrite EW.
Qed.

Lemma index_some P v idx : part_ok P -> index_in P v = Some idx -> worker_at P idx v.
Proof. intros HP. apply index_in_spec, HP. Qed.

(** The index of the workers that hold a parameter, cut to its dimensions. *)
Definition holder (P : part) (keep : list Z -> bool) (cut : list Z -> list Z) (v : Z) : option (list Z) :=
  match index_in P v with Some idx => if keep idx then Some (cut idx) else None | None => None end.

Lemma holder_some P keep cut v i : part_ok P ->
  (holder P keep cut v = Some i <-> exists idx, worker_at P idx v /\ keep idx = true /\ i = cut idx).
Proof.
  intros HP. unfold holder. split.
  - destruct (index_in P v) as [idx|] eqn:E; [|discriminate]. destruct (keep idx) eqn:K; [|discriminate]. intros H. inv H.
    exists idx. split; [now apply index_some|auto].
  - intros (idx & Hw & K & ->). apply index_in_spec in Hw; auto. now rewrite Hw, K.
Qed.

(** [paste] restores the index. *)
Lemma owned_held P hd name s ps keep cut paste : part_ok P ->
  nonneg_shape s -> pos_shape ps -> length s = length ps ->
  (forall i, valid_index ps i -> valid_index (p_shape P) (paste i) /\ keep (paste i) = true /\ cut (paste i) = i) ->
  (forall idx, valid_index (p_shape P) idx -> keep idx = true -> valid_index ps (cut idx) /\ paste (cut idx) = idx) ->
  (forall v sh, In (name, sh) (hd v) <-> exists idx, worker_at P idx v /\ keep idx = true /\ sh = block_shape (balanced s ps) (cut idx)) ->
  owned_once hd name s.
Proof.
  intros HP Hs Hp Hl Hpaste Hcut Hh. apply (owned_by hd name s ps (holder P keep cut)); auto.
  - intros i Hi. destruct (Hpaste i Hi) as (A & B & C). destruct (worker_exists P (paste i) HP A) as [v Hv]. exists v.
    apply holder_some; auto. exists (paste i). auto.
  - intros v i H. apply holder_some in H as (idx & [Hi Hw] & K & ->); auto. apply Hcut; auto.
  - intros v v' i H H'. apply holder_some in H as (idx & Hw & K & ->); auto. apply holder_some in H' as (idx' & Hw' & K' & E); auto.
    assert (idx = idx') by (rewrite <- (proj2 (Hcut idx (proj1 Hw) K)), E; apply Hcut; auto; apply Hw'). subst idx'. eapply worker_at_inj; eauto.
  - intros v sh. rewrite Hh. split.
    + intros (idx & Hw & K & ->). exists (cut idx). split; [apply holder_some; eauto|reflexivity].
    + intros (i & Hi & ->). apply holder_some in Hi as (idx & Hw & K & ->); auto. exists idx. auto.
Qed.

Ltac names := cbn [map fst]; repeat constructor; cbn [In]; intuition discriminate.

Lemma C73_linear_proof : C73_linear_statement.
Proof.
  intros Pw fi fo n_in n_out use_bias HP Es Hi Ho. pose proof (proj1 (proj2 (proj2 HP))) as Hpos. rewrite Es in Hpos.
  assert (Pf : 0 < fo /\ 0 < fi) by (inversion Hpos as [|? ? ? H]; subst; inversion H; subst; auto).
  set (hd := held _).
  assert (F : forall idx v, worker_at Pw idx v -> exists j i, idx = [j; i] /\ 0 <= j < fo /\ 0 <= i < fi /\
    hd v = ("sublinear.weight", [subshape1 fo j n_out; subshape1 fi i n_in])%string ::
           (if (i =? 0) && use_bias then [("sublinear.bias", [subshape1 fo j n_out])]%string else [])).
  { intros idx v Hv. pose proof (proj1 Hv) as Hx. rewrite Es in Hx.
    apply valid_index_cons_inv in Hx as (j & t & -> & Hj & Hx). apply valid_index_cons_inv in Hx as (i & t' & -> & Hii & Hx).
    apply valid_index_nil in Hx. subst t'. exists j, i. repeat (split; [now auto|]).
    unfold hd, held, linear_module. apply index_in_spec in Hv; auto. rewrite Hv. unfold sublinear_shape, sublinear_bias. rewrite Es.
    cbn [last nth]. unfold compute_subshape. cbn [map3 app torch_layer fst snd nth].
    destruct (i =? 0), use_bias; reflexivity. }
  assert (N : forall v, ~ In v (p_ranks Pw) -> hd v = []).
  { intros v Hv. unfold hd, held, linear_module. apply index_in_none in Hv. now rewrite Hv. }
  assert (D : forall v, hd v = [] \/ exists idx, worker_at Pw idx v).
  { intros v. destruct (in_dec Z.eq_dec v (p_ranks Pw)) as [H|H]; [right; now apply worker_at_exists|left; auto]. }
  split; [|split].
  - intros name s Hin.
    assert (Hin' : (name, s) = ("sublinear.weight", [n_out; n_in])%string \/ (use_bias = true /\ (name, s) = ("sublinear.bias", [n_out])%string)).
    { destruct use_bias; cbn [with_bias firstn In] in Hin; intuition. }
    destruct Hin' as [E|[Ub E]]; inv E.
    + apply (owned_held Pw hd _ _ [fo; fi] (fun _ => true) (fun i => i) (fun i => i)); auto.
      * repeat constructor; auto.
      * intros i H. rewrite Es. auto.
      * intros i H _. rewrite Es in H. auto.
      * intros v sh. split.
        -- intros H. destruct (D v) as [E|[idx Hv]]; [rewrite E in H; destruct H|]. destruct (F idx v Hv) as (j & i & -> & Hj & Hii & E).
           rewrite E in H. exists [j; i]. split; [exact Hv|]. split; [reflexivity|]. rewrite !bal_shape_cons by auto.
           destruct H as [H|H]; [now inv H|]. destruct ((i =? 0) && use_bias); [|destruct H]. destruct H as [H|[]]. discriminate.
        -- intros (idx & Hv & _ & ->). destruct (F idx v Hv) as (j & i & -> & Hj & Hii & E). rewrite E, !bal_shape_cons by auto. left. reflexivity.
    + apply (owned_held Pw hd _ _ [fo] (fun i => nth 1 i 0 =? 0) (firstn 1) (fun i => i ++ [0])); auto.
      * repeat constructor; auto.
      * repeat constructor; lia.
      * intros i H. apply valid_index_cons_inv in H as (j & t & -> & Hj & Hx). apply valid_index_nil in Hx. subst t. rewrite Es.
        split; [|split; reflexivity]. repeat (apply valid_index_cons; split; [lia|]). constructor.
      * intros i H K. rewrite Es in H. apply valid_index_cons_inv in H as (j & t & -> & Hj & Hx).
        apply valid_index_cons_inv in Hx as (i' & t' & -> & Hii & Hx). apply valid_index_nil in Hx. subst t'. cbn [nth] in K. apply Z.eqb_eq in K. subst i'.
        cbn [firstn app]. split; [|reflexivity]. apply valid_index_cons. split; [lia|constructor].
      * intros v sh. split.
        -- intros H. destruct (D v) as [E|[idx Hv]]; [rewrite E in H; destruct H|]. destruct (F idx v Hv) as (j & i & -> & Hj & Hii & E).
           rewrite E in H. exists [j; i]. split; [exact Hv|]. cbn [nth firstn]. rewrite bal_shape_cons by auto.
           destruct H as [H|H]; [discriminate|]. destruct (i =? 0) eqn:Ei; [|destruct H]. cbn [andb] in H. destruct H as [H|[]].
           split; [reflexivity|]. now inv H.
        -- intros (idx & Hv & K & ->). destruct (F idx v Hv) as (j & i & -> & Hj & Hii & E). cbn [nth] in K. rewrite E, K. cbn [andb firstn].
           rewrite bal_shape_cons by auto. right. left. reflexivity.
  - intros v. destruct (D v) as [E|[idx Hv]]; [rewrite E; constructor|]. destruct (F idx v Hv) as (j & i & _ & _ & _ & E). rewrite E.
    destruct ((i =? 0) && use_bias); names.
  - intros v name sh H. destruct (D v) as [E|[idx Hv]]; [rewrite E in H; destruct H|]. destruct (F idx v Hv) as (j & i & _ & _ & _ & E). rewrite E in H.
    destruct H as [H|H]; [inv H; destruct use_bias; left; reflexivity|]. destruct (i =? 0); [|destruct H]. destruct use_bias; [|destruct H].
    destruct H as [H|[]]. inv H. right. left. reflexivity.
Qed.

(** ** Convolutions *)

Lemma zeros_all n : all_zero (repeat 0 n) = true.
Proof. induction n as [|n IH]; [reflexivity|]. cbn [repeat all_zero forallb]. exact IH. Qed.
Lemma zeros_one n : valid_index (repeat 1 n) (repeat 0 n).
Proof. induction n as [|n IH]; [constructor|]. cbn [repeat]. apply valid_index_cons. split; [lia|exact IH]. Qed.
Lemma ones_zero n i : valid_index (repeat 1 n) i -> i = repeat 0 n.
Proof.
  revert i. induction n as [|n IH]; intros i H; cbn [repeat] in H; [now apply valid_index_nil in H|].
  apply valid_index_cons_inv in H as (a & t & -> & Ha & Ht). cbn [repeat]. f_equal; [lia|auto].
Qed.

Section Conv.
  Variables (Px Py Pw : part) (co ci : Z) (S : list Z) (w : window) (groups cin cout : Z) (use_bias : bool).
  Hypothesis HP : conv_partitions Px Py Pw co ci S.
  Hypothesis HS : length S = length (w_kernel w).
  Hypothesis HZ : conv_sizes w groups cin cout.
  Hypothesis HG : forall i, 0 <= i < ci -> subshape1 ci i cin / groups = subshape1 ci i (cin / groups).
  Let nk := length (w_kernel w).

  Lemma pr_pw : part_ok Pw. Proof. apply HP. Qed.
  Lemma pr_pos : 0 < co /\ 0 < ci /\ pos_shape S. Proof. exact (c_pos _ _ _ _ _ _ HP). Qed.

  Lemma pr_local j i s : local_weight_shape Pw cin cout groups w (j :: i :: s) = subshape1 co j cout :: subshape1 ci i cin / groups :: w_kernel w.
  Proof. unfold local_weight_shape. now rewrite (c_sw _ _ _ _ _ _ HP). Qed.

  Lemma pr_shape j i s : 0 <= i < ci ->
    local_weight_shape Pw cin cout groups w (j :: i :: s) =
    subshape1 co j cout :: subshape1 ci i (cin / groups) :: w_kernel w.
  Proof. intros Hi. now rewrite pr_local, HG. Qed.

  (** The workers that keep parts of the weight, and of the bias. *)
  Definition keeps_weight (idx : list Z) : bool := all_zero (skipn 2 idx).
  Definition keeps_bias (idx : list Z) : bool := all_zero (skipn 1 idx).

  Lemma zeros_valid s : all_zero s = true -> length s = nk -> s = repeat 0 nk.
  Proof.
    intros H <-. clear - H. induction s as [|a s IH]; [reflexivity|]. cbn [all_zero forallb] in H. apply andb_true_iff in H as [H1 H2].
    apply Z.eqb_eq in H1. subst a. cbn [length repeat]. f_equal. now apply IH.
  Qed.
  Lemma zeros_S : valid_index S (repeat 0 nk).
  Proof.
    unfold nk. rewrite <- HS. destruct pr_pos as (_ & _ & H). clear - H.
    induction H as [|n l Hn Hl IH]; [constructor|]. cbn [length repeat]. apply valid_index_cons. split; [lia|exact IH].
  Qed.

  Variable hd : Z -> list (string * list Z).
  Hypothesis Hout : forall v, ~ In v (p_ranks Pw) -> hd v = [].
  Hypothesis Hin : forall j i s v, worker_at Pw (j :: i :: s) v -> 0 <= j < co -> 0 <= i < ci ->
    hd v = (if all_zero s then [("weight", local_weight_shape Pw cin cout groups w (j :: i :: s))]%string else []) ++
           (if (i =? 0) && all_zero s && use_bias then [("bias", [subshape1 co j cout])]%string else []).

  Lemma pr_cases v : hd v = [] \/ exists j i s, worker_at Pw (j :: i :: s) v /\ 0 <= j < co /\ 0 <= i < ci /\ valid_index S s.
  Proof.
    destruct (in_dec Z.eq_dec v (p_ranks Pw)) as [H|H]; [right|left; auto]. destruct (worker_at_exists Pw v pr_pw H) as [idx Hw].
    destruct (pw_idx _ _ _ _ _ _ HP idx (proj1 Hw)) as (j & i & s & -> & Hj & Hi & Hs). eauto 8.
  Qed.

  Lemma pr_weight : owned_once hd "weight"%string (cout :: cin / groups :: w_kernel w).
  Proof.
    destruct pr_pos as (P1 & P2 & P3). destruct HZ as (Hk & Hci & Hco & Hg & _).
    apply (owned_held Pw hd _ _ (co :: ci :: repeat 1 nk) keeps_weight (fun i => i) (fun i => i)); [exact pr_pw| | | | | |].
    - constructor; [exact Hco|]. constructor; [apply Z.div_pos; auto|exact Hk].
    - constructor; [exact P1|]. constructor; [exact P2|]. apply Forall_forall. intros x Hx. apply repeat_spec in Hx. lia.
    - cbn [length]. now rewrite repeat_length.
    - intros i H. apply valid_index_cons_inv in H as (j & t & -> & Hj & H). apply valid_index_cons_inv in H as (i' & t' & -> & Hi & H).
      apply ones_zero in H. subst t'. rewrite (c_sw _ _ _ _ _ _ HP). split; [|split; [apply zeros_all|reflexivity]].
      apply valid_index_cons. split; [auto|]. apply valid_index_cons. split; [auto|]. exact zeros_S.
    - intros idx H K. destruct (pw_idx _ _ _ _ _ _ HP idx H) as (j & i & s & -> & Hj & Hi & Hs). unfold keeps_weight in K. cbn [skipn] in K.
      apply zeros_valid in K; [|apply valid_index_length in Hs; unfold nk; congruence]. subst s. split; [|reflexivity].
      apply valid_index_cons. split; [auto|]. apply valid_index_cons. split; [auto|]. apply zeros_one.
    - intros v sh.
      assert (B : forall j i, 0 <= j < co -> 0 <= i < ci ->
        block_shape (balanced (cout :: cin / groups :: w_kernel w) (co :: ci :: repeat 1 nk)) (j :: i :: repeat 0 nk) =
        subshape1 co j cout :: subshape1 ci i (cin / groups) :: w_kernel w).
      { intros j i Hj Hi. rewrite !bal_shape_cons by auto. unfold nk. now rewrite ones_shape. }
      split.
      + intros H. destruct (pr_cases v) as [E|(j & i & s & Hw & Hj & Hi & Hs)]; [rewrite E in H; destruct H|].
        rewrite (Hin _ _ _ _ Hw Hj Hi) in H. exists (j :: i :: s). split; [exact Hw|]. apply in_app_or in H as [H|H].
        * destruct (all_zero s) eqn:K; [|destruct H]. destruct H as [H|[]]. split; [exact K|].
          apply zeros_valid in K; [|apply valid_index_length in Hs; unfold nk; congruence]. subst s. rewrite B by auto. rewrite pr_shape in H by auto. now inv H.
        * destruct ((i =? 0) && all_zero s && use_bias); [|destruct H]. destruct H as [H|[]]. discriminate.
      + intros (idx & Hw & K & ->). destruct (pw_idx _ _ _ _ _ _ HP idx (proj1 Hw)) as (j & i & s & -> & Hj & Hi & Hs).
        unfold keeps_weight in K. cbn [skipn] in K. rewrite (Hin _ _ _ _ Hw Hj Hi), K.
        apply zeros_valid in K; [|apply valid_index_length in Hs; unfold nk; congruence]. subst s. rewrite B, pr_shape by auto.
        apply in_or_app. left. left. reflexivity.
  Qed.

  Lemma pr_bias : use_bias = true -> owned_once hd "bias"%string [cout].
  Proof.
    intros Ub. destruct pr_pos as (P1 & P2 & P3). destruct HZ as (Hk & Hci & Hco & Hg & _).
    apply (owned_held Pw hd _ _ [co] keeps_bias (firstn 1) (fun i => i ++ 0 :: repeat 0 nk)); [exact pr_pw| | | | | |].
    - repeat constructor; auto.
    - repeat constructor; auto.
    - reflexivity.
    - intros i H. apply valid_index_cons_inv in H as (j & t & -> & Hj & H). apply valid_index_nil in H. subst t. rewrite (c_sw _ _ _ _ _ _ HP).
      cbn [app]. split; [|split; [exact (zeros_all (Datatypes.S nk))|reflexivity]].
      apply valid_index_cons. split; [auto|]. apply valid_index_cons. split; [lia|]. exact zeros_S.
    - intros idx H K. destruct (pw_idx _ _ _ _ _ _ HP idx H) as (j & i & s & -> & Hj & Hi & Hs). unfold keeps_bias in K. cbn [skipn all_zero forallb] in K.
      apply andb_true_iff in K as [K1 K]. apply Z.eqb_eq in K1. subst i.
      apply zeros_valid in K; [|apply valid_index_length in Hs; unfold nk; congruence]. subst s. cbn [firstn app]. split; [|reflexivity].
      apply valid_index_cons. split; [auto|constructor].
    - intros v sh. split.
      + intros H. destruct (pr_cases v) as [E|(j & i & s & Hw & Hj & Hi & Hs)]; [rewrite E in H; destruct H|].
        rewrite (Hin _ _ _ _ Hw Hj Hi) in H. exists (j :: i :: s). split; [exact Hw|]. apply in_app_or in H as [H|H].
        * destruct (all_zero s); [|destruct H]. destruct H as [H|[]]. discriminate.
        * unfold keeps_bias. cbn [skipn all_zero forallb firstn]. fold (all_zero s). rewrite bal_shape_cons by auto.
          destruct ((i =? 0) && all_zero s && use_bias) eqn:K; [|destruct H]. apply andb_true_iff in K as [K _]. split; [exact K|].
          destruct H as [H|[]]. now inv H.
      + intros (idx & Hw & K & ->). destruct (pw_idx _ _ _ _ _ _ HP idx (proj1 Hw)) as (j & i & s & -> & Hj & Hi & Hs).
        unfold keeps_bias in K. cbn [skipn all_zero forallb] in K. fold (all_zero s) in K. rewrite (Hin _ _ _ _ Hw Hj Hi), K, Ub. cbn [andb firstn].
        rewrite bal_shape_cons by auto. apply in_or_app. right. left. reflexivity.
  Qed.

  Lemma pr_all : parameters_are hd (conv_parameters w groups cin cout use_bias).
  Proof.
    unfold conv_parameters. split; [|split].
    - intros name s H.
      assert (H' : (name, s) = ("weight", cout :: cin / groups :: w_kernel w)%string \/ (use_bias = true /\ (name, s) = ("bias", [cout])%string)).
      { destruct use_bias; cbn [with_bias firstn In] in H; intuition. }
      destruct H' as [E|[Ub E]]; injection E as -> ->; [exact pr_weight|exact (pr_bias Ub)].
    - intros v. destruct (pr_cases v) as [E|(j & i & s & Hw & Hj & Hi & Hs)]; [rewrite E; constructor|]. rewrite (Hin _ _ _ _ Hw Hj Hi).
      destruct (all_zero s), ((i =? 0)), use_bias; cbn [andb app]; names.
    - intros v name sh H. destruct (pr_cases v) as [E|(j & i & s & Hw & Hj & Hi & Hs)]; [rewrite E in H; destruct H|].
      rewrite (Hin _ _ _ _ Hw Hj Hi) in H. apply in_app_or in H as [H|H].
      + destruct (all_zero s); [|destruct H]. destruct H as [H|[]]. inv H. destruct use_bias; left; reflexivity.
      + destruct ((i =? 0) && all_zero s); [|destruct H]. destruct use_bias; [|destruct H]. destruct H as [H|[]]. inv H. right. left. reflexivity.
  Qed.
End Conv.

Lemma unit_product l : pos_shape l -> zprod l = 1 -> l = repeat 1 (length l).
Proof.
  induction l as [|n l IH]; intros Hp E; [reflexivity|]. inversion Hp; subst. change (n * zprod l = 1) in E.
  pose proof (zprod_pos l ltac:(assumption)). cbn [length repeat]. f_equal; [nia|]. apply IH; auto. nia.
Qed.

Lemma one_worker Px Py Pw co ci S : conv_partitions Px Py Pw co ci S -> length (p_ranks Pw) = 1%nat ->
  co = 1 /\ ci = 1 /\ S = repeat 1 (length S).
Proof.
  intros HP E. pose proof (c_pw _ _ _ _ _ _ HP) as (_ & _ & _ & L). rewrite E, (c_sw _ _ _ _ _ _ HP) in L.
  destruct (c_pos _ _ _ _ _ _ HP) as (P1 & P2 & P3). change (1 = co * (ci * zprod S)) in L. pose proof (zprod_pos S P3).
  assert (0 < ci * zprod S) by nia. assert (co = 1) by nia. assert (ci = 1) by nia. split; [auto|]. split; [auto|]. apply unit_product; auto. nia.
Qed.

(** If torch accepts the channels of every worker, all have equally many, or there
    are no groups. *)
Lemma divided ci cin groups : 0 < ci -> 0 <= cin -> 0 < groups -> (forall i, 0 <= i < ci -> (groups | subshape1 ci i cin)) ->
  forall i, 0 <= i < ci -> subshape1 ci i cin / groups = subshape1 ci i (cin / groups).
Proof.
  intros Hp Hc Hg Hd i Hi. destruct (Z.eq_dec groups 1) as [->|Hg1]; [now rewrite !Z.div_1_r|].
  pose proof (Hd 0 ltac:(lia)) as D0. pose proof (Hd (ci - 1) ltac:(lia)) as D1. unfold subshape1 in D0, D1.
  pose proof (Z.mod_pos_bound cin ci Hp) as B. pose proof (Z.div_mod cin ci ltac:(lia)) as E.
  assert (M : cin mod ci = 0).
  { destruct (Z.eq_dec (cin mod ci) 0) as [|Hm]; auto. exfalso.
    destruct (Z.ltb_spec 0 (cin mod ci)); [|lia]. destruct (Z.ltb_spec (ci - 1) (cin mod ci)); [lia|].
    pose proof (Z.divide_sub_r _ _ _ D0 D1) as D. replace (cin / ci + 1 - (cin / ci + 0)) with 1 in D by lia.
    apply Z.divide_1_r_nonneg in D; lia. }
  rewrite M in D0. cbn [Z.ltb Z.compare] in D0. destruct D0 as [r Er]. rewrite Z.add_0_r in Er. rewrite M, Z.add_0_r, Er in E. unfold subshape1.
  assert (Eg : cin / groups = r * ci) by (rewrite E; replace (ci * (r * groups)) with (r * ci * groups) by ring; apply Z.div_mul; lia).
  rewrite Eg, Z.mod_mul, Z.div_mul, M, Er by lia. destruct (i <? 0) eqn:El; [apply Z.ltb_lt in El; lia|]. rewrite !Z.add_0_r. apply Z.div_mul. lia.
Qed.

Lemma pr_made Px Py Pw co ci S w groups cin cout j i s : conv_partitions Px Py Pw co ci S ->
  conv_made groups (local_in_channels Pw cin cout (j :: i :: s)) (local_weight_shape Pw cin cout groups w (j :: i :: s)) =
  (subshape1 ci i cin mod groups =? 0) && (subshape1 co j cout mod groups =? 0).
Proof.
  intros HP. unfold local_weight_shape, conv_made, local_in_channels. rewrite (c_sw _ _ _ _ _ _ HP). reflexivity.
Qed.

Lemma not_there Px Py Pw v : inactive Px Py Pw v = true -> ~ In v (p_ranks Pw).
Proof.
  unfold inactive. intros H Hv. apply is_active_spec in Hv. rewrite Hv, !orb_true_r in H. discriminate.
Qed.

(** The layer of a single worker. *)
Lemma serial_made w groups cin cout use_bias : conv_sizes w groups cin cout ->
  serial_module w groups cin cout use_bias = Ok (aliases (torch_layer (cout :: cin / groups :: w_kernel w) use_bias)).
Proof.
  intros (_ & _ & _ & Hg & Di & Do). unfold serial_module, conv_made. cbn [nth].
  apply Z.mod_divide in Di; [|lia]. apply Z.mod_divide in Do; [|lia]. now rewrite Di, Do.
Qed.

Lemma alias_parameters sh use_bias : named_parameters (aliases (torch_layer sh use_bias)) =
  ("weight", sh)%string :: (if use_bias then [("bias", [nth 0 sh 0])]%string else []).
Proof. destruct use_bias; reflexivity. Qed.

(** What a worker holds of its layer when P_w has several workers. *)
Definition parts_held (Pw : part) (co ci : Z) (w : window) (groups cin cout : Z) (use_bias : bool) (parameters : Z -> result module) : Prop :=
  (forall v, ~ In v (p_ranks Pw) -> parameters v = Ok [("weight", zero_volume); ("bias", no_bias use_bias)]%string) /\
  (forall j i s v, worker_at Pw (j :: i :: s) v ->
     exists m, parameters v = (if (subshape1 ci i cin mod groups =? 0) && (subshape1 co j cout mod groups =? 0) then Ok m else Raise ErrTorch) /\
       (forall name sh, In (name, sh) (named_buffers m) -> zprod sh = 0) /\
       named_parameters m =
         (if all_zero s then [("weight", local_weight_shape Pw cin cout groups w (j :: i :: s))]%string else []) ++
         (if (i =? 0) && all_zero s && use_bias then [("bias", [subshape1 co j cout])]%string else [])).

Lemma conv_proof (k : conv_class) (Px Py Pw : part) (co ci : Z) (S : list Z) (w : window) (groups cin cout : Z) (use_bias : bool)
    (parameters : Z -> result module) :
  conv_partitions Px Py Pw co ci S -> length S = length (w_kernel w) -> conv_sizes w groups cin cout ->
  (k = ChannelConv -> S = repeat 1 (length S)) -> parts_held Pw co ci w groups cin cout use_bias parameters ->
  let make v :=
    if inactive Px Py Pw v then Ok []
    else
      let* _ := recast_x k Px Pw v in
      let* _ := recast_y k Py Pw v in
      if serial Pw v then serial_module w groups cin cout use_bias
      else if partner_missing Pw v then Raise ErrComm else parameters v in
  (plain groups Px Py Pw -> forall v, returns make v) /\
  ((forall v, returns make v) -> (forall v, made make v) /\ parameters_are (held make) (conv_parameters w groups cin cout use_bias)).
Proof.
  intros HP HS HZ Hk [Ho Hp] make. pose proof (c_pw _ _ _ _ _ _ HP) as Hw. destruct (c_pos _ _ _ _ _ _ HP) as (P1 & P2 & P3).
  assert (Em : forall v, make v = if inactive Px Py Pw v then Ok []
      else if serial Pw v then serial_module w groups cin cout use_bias else if partner_missing Pw v then Raise ErrComm else parameters v).
  { intros v. unfold make. destruct (inactive Px Py Pw v); [reflexivity|].
    rewrite (c_recast_x Px Py Pw co ci S HP k v Hk), (c_recast_y Px Py Pw co ci S HP k v Hk). reflexivity. }
  clearbody make.
  assert (A : forall v, In v (p_ranks Pw) -> inactive Px Py Pw v = false).
  { intros v Hv. destruct (inactive Px Py Pw v) eqn:E; auto. apply not_there in E. contradiction. }
  assert (Ez : forall m, m = [("weight", zero_volume); ("bias", no_bias use_bias)]%string ->
             (forall name sh, In (name, sh) (named_buffers m) -> zprod sh = 0) /\ named_parameters m = []).
  { intros m ->. destruct use_bias; cbn; intuition; match goal with H : (_, _) = (_, _) |- _ => now inv H end. }
  destruct (Nat.eqb_spec (length (p_ranks Pw)) 1) as [E1|E1].
  - destruct (one_worker _ _ _ _ _ _ HP E1) as (-> & -> & ES).
    assert (B : forall v, In v (p_ranks Pw) -> make v = Ok (aliases (torch_layer (cout :: cin / groups :: w_kernel w) use_bias))).
    { intros v Hv. rewrite Em, A by auto. unfold serial. rewrite (proj2 (is_active_spec (p_ranks Pw) v) Hv), E1. cbn [Nat.eqb andb]. now apply serial_made. }
    assert (C : forall v, ~ In v (p_ranks Pw) -> make v = Ok [] \/ (make v = Raise ErrComm /\ inactive Px Py Pw v = false)).
    { intros v Hv. rewrite Em. destruct (inactive Px Py Pw v); [left; reflexivity|right]. unfold partner_missing, serial.
      rewrite (proj2 (is_active_false (p_ranks Pw) v) Hv), E1. auto. }
    split.
    + intros [_ E4] v. destruct (E4 E1) as [E5 E6]. destruct (in_dec Z.eq_dec v (p_ranks Pw)) as [Hv|Hv]; [eexists; apply B; auto|].
      destruct (C v Hv) as [E|[_ E]]; [eexists; exact E|]. exfalso. unfold inactive in E.
      rewrite E5, E6, (proj2 (is_active_false (p_ranks Pw) v) Hv) in E. discriminate.
    + intros Hr. split.
      * intros v. destruct (in_dec Z.eq_dec v (p_ranks Pw)) as [Hv|Hv].
        -- exists (aliases (torch_layer (cout :: cin / groups :: w_kernel w) use_bias)). split; [auto|]. intros name sh H. destruct use_bias; destruct H.
        -- exists []. destruct (C v Hv) as [E|[E _]]; [split; [exact E|intros name sh []]|]. destruct (Hr v) as [m Hm]. congruence.
      * assert (HG : forall i, 0 <= i < 1 -> subshape1 1 i cin / groups = subshape1 1 i (cin / groups)).
        { intros i Hi. assert (i = 0) by lia. subst i. now rewrite !unit_sub. }
        apply (pr_all Px Py Pw 1 1 S w groups cin cout use_bias HP HS HZ HG).
        -- intros v Hv. unfold held. destruct (C v Hv) as [E|[E _]]; now rewrite E.
        -- intros j i s v Hv Hj Hi. unfold held. rewrite B by (eapply worker_at_In; eauto). rewrite alias_parameters.
           assert (j = 0) by lia. assert (i = 0) by lia. subst j i.
           destruct (pw_idx _ _ _ _ _ _ HP _ (proj1 Hv)) as (j' & i' & s' & E & _ & _ & Hs). inversion E; subst j' i' s'.
           rewrite ES in Hs. apply ones_zero in Hs. rewrite Hs, zeros_all. rewrite (pr_shape Px Py Pw 1 1 S w groups cin cout HP HG) by lia.
           rewrite !unit_sub. cbn [Z.eqb andb app nth]. reflexivity.
  - assert (B : forall v, inactive Px Py Pw v = false -> make v = parameters v).
    { intros v Hv. rewrite Em, Hv. unfold partner_missing, serial. apply Nat.eqb_neq in E1. now rewrite E1, !andb_false_r. }
    assert (C : forall v, ~ In v (p_ranks Pw) -> make v = Ok [] \/ make v = Ok [("weight", zero_volume); ("bias", no_bias use_bias)]%string).
    { intros v Hv. destruct (inactive Px Py Pw v) eqn:E; [left; now rewrite Em, E|right]. rewrite B by auto. auto. }
    assert (D : forall v, In v (p_ranks Pw) -> exists j i s, worker_at Pw (j :: i :: s) v /\ 0 <= j < co /\ 0 <= i < ci).
    { intros v Hv. destruct (worker_at_exists Pw v Hw Hv) as [idx Hi]. destruct (pw_idx _ _ _ _ _ _ HP idx (proj1 Hi)) as (j & i & s & -> & Hj & Hii & _). eauto 8. }
    destruct HZ as (Z1 & Z2 & Z3 & Z4 & Z5 & Z6). split.
    + intros [HE _] v. destruct (in_dec Z.eq_dec v (p_ranks Pw)) as [Hv|Hv].
      * destruct (D v Hv) as (j & i & s & Hi & Hj & Hii). destruct (Hp j i s v Hi) as (m & M1 & _). exists m. rewrite B, M1 by auto.
        rewrite (c_sw _ _ _ _ _ _ HP) in HE. cbn [nth] in HE. destruct HE as [->|[-> ->]]; [now rewrite !Z.mod_1_r|].
        assert (j = 0) by lia. assert (i = 0) by lia. subst j i. rewrite !unit_sub.
        apply Z.mod_divide in Z5; [|lia]. apply Z.mod_divide in Z6; [|lia]. now rewrite Z5, Z6.
      * destruct (C v Hv) as [E|E]; eexists; exact E.
    + intros Hr.
      assert (Hd : forall j i s v, worker_at Pw (j :: i :: s) v -> (subshape1 ci i cin mod groups =? 0) && (subshape1 co j cout mod groups =? 0) = true).
      { intros j i s v Hv. destruct (Hp j i s v Hv) as (m & M1 & _). destruct (Hr v) as [m' M2]. rewrite B in M2 by (apply A; eapply worker_at_In; eauto).
        destruct (_ && _); [reflexivity|]. congruence. }
      assert (HG : forall i, 0 <= i < ci -> subshape1 ci i cin / groups = subshape1 ci i (cin / groups)).
      { apply divided; auto. intros i Hi. assert (Vi : valid_index (p_shape Pw) (0 :: i :: map (fun _ => 0) S)).
        { rewrite (c_sw _ _ _ _ _ _ HP). apply valid_index_cons. split; [lia|]. apply valid_index_cons. split; [lia|]. clear - P3.
          induction P3 as [|n l Hn Hl IH]; [constructor|]. cbn [map]. apply valid_index_cons. split; [lia|exact IH]. }
        destruct (worker_exists Pw _ Hw Vi) as [v Hv]. pose proof (Hd _ _ _ _ Hv) as Q. apply andb_true_iff in Q as [Q _]. apply Z.eqb_eq in Q.
        apply Z.mod_divide; [lia|exact Q]. }
      split.
      * intros v. destruct (in_dec Z.eq_dec v (p_ranks Pw)) as [Hv|Hv].
        -- destruct (D v Hv) as (j & i & s & Hi & Hj & Hii).
           destruct (Hp j i s v Hi) as (m & M1 & M2 & _). rewrite (Hd _ _ _ _ Hi) in M1. exists m. split; [rewrite B by auto; exact M1|exact M2].
        -- destruct (C v Hv) as [E|E]; eexists; (split; [exact E|]); [intros name sh []|apply Ez; reflexivity].
      * apply (pr_all Px Py Pw co ci S w groups cin cout use_bias HP HS); auto.
        -- repeat (split; [assumption|]). assumption.
        -- intros v Hv. unfold held. destruct (C v Hv) as [E|E]; rewrite E; [reflexivity|apply Ez; reflexivity].
        -- intros j i s v Hv Hj Hi. unfold held. rewrite B by (apply A; eapply worker_at_In; eauto).
           destruct (Hp j i s v Hv) as (m & M1 & _ & M3). rewrite (Hd _ _ _ _ Hv) in M1. now rewrite M1.
Qed.

Lemma C73_channel_proof : C73_channel_statement.
Proof.
  intros Px Py Pw co ci w groups cin cout use_bias HP HZ. set (S := repeat 1 (length (w_kernel w))) in *.
  assert (LS : length S = length (w_kernel w)) by (unfold S; apply repeat_length).
  apply (conv_proof ChannelConv Px Py Pw co ci S w groups cin cout use_bias _ HP LS HZ).
  - intros _. unfold S. now rewrite repeat_length.
  - split.
    + intros v Hv. unfold channel_parameters. apply index_in_none in Hv. now rewrite Hv.
    + intros j i s v Hv. destruct (pw_idx _ _ _ _ _ _ HP _ (proj1 Hv)) as (j' & i' & s' & E & _ & _ & Hs). inversion E; subst j' i' s'.
      unfold S in Hs. apply ones_zero in Hs. unfold channel_parameters. pose proof Hv as Hv'.
      apply index_in_spec in Hv'; [|apply HP]. rewrite Hv'. cbv zeta. rewrite (pr_made Px Py Pw co ci S w groups cin cout j i s HP).
      cbn [nth]. rewrite (pr_local Px Py Pw co ci S w groups cin cout HP) by auto. rewrite Hs, zeros_all, andb_true_r.
      unfold torch_layer. cbn [nth]. eexists. split; [reflexivity|].
      destruct (i =? 0), use_bias; cbn [andb app]; (split; [|reflexivity]); cbn; intros name sh H; intuition; match goal with H : (_, _) = (_, _) |- _ => now inv H end.
Qed.

Lemma mask_all s n : length s = n -> mask_zero (repeat true n) s = all_zero s.
Proof. intros E. now apply mask_true. Qed.

Lemma C73_general_proof : C73_general_statement.
Proof.
  intros Px Py Pw co ci S w groups cin cout use_bias HP LS HZ.
  apply (conv_proof GeneralConv Px Py Pw co ci S w groups cin cout use_bias _ HP LS HZ); [discriminate|]. split.
  - intros v Hv. unfold general_parameters. apply index_in_none in Hv. now rewrite Hv.
  - intros j i s v Hv. destruct (pw_idx _ _ _ _ _ _ HP _ (proj1 Hv)) as (j' & i' & s' & E & _ & _ & Hs). inversion E; subst j' i' s'.
    apply valid_index_length in Hs. rewrite LS in Hs. unfold general_parameters. pose proof Hv as Hv'.
    apply index_in_spec in Hv'; [|apply HP]. rewrite Hv'. destruct (q_roots Px Py Pw co ci S HP w LS) as (R1 & R2 & R3). rewrite R1, R2, R3. cbn [rbind].
    cbv zeta. rewrite (pr_made Px Py Pw co ci S w groups cin cout j i s HP).
    rewrite (pr_local Px Py Pw co ci S w groups cin cout HP). cbn [nth].
    assert (F : forall m b, length m = length (p_shape Pw) -> mask_zero m (j :: i :: s) = b -> is_active (p_ranks (sub_part m Pw)) v = b).
    { intros m b Lm Eb. pose proof (sub_active Pw m (c_pw _ _ _ _ _ _ HP) Lm v) as Q. destruct b.
      - apply is_active_spec, Q. eauto.
      - apply is_active_false. rewrite Q. intros (idx & Hi' & Hz). rewrite (worker_at_fun Pw _ _ v (c_pw _ _ _ _ _ _ HP) Hi' Hv) in Hz. congruence. }
    assert (Lm : forall a c m, length m = length (w_kernel w) -> length (a :: c :: m : list bool) = length (p_shape Pw)).
    { intros a c m Em. rewrite (c_sw _ _ _ _ _ _ HP). cbn [length]. congruence. }
    rewrite (F (false :: false :: repeat true (length (w_kernel w))) (all_zero s));
      [|apply Lm; apply repeat_length|rewrite !mask_cons; cbn [andb]; now rewrite mask_all].
    rewrite (F (false :: true :: repeat false (length (w_kernel w))) (i =? 0));
      [|apply Lm; apply repeat_length|rewrite !mask_cons, mask_false; cbn [andb]; now rewrite andb_true_r].
    rewrite (F (false :: true :: repeat true (length (w_kernel w))) ((i =? 0) && all_zero s));
      [|apply Lm; apply repeat_length|rewrite !mask_cons; cbn [andb]; now rewrite mask_all].
    exists [("weight", if all_zero s then Param 2 (subshape1 co j cout :: (subshape1 ci i cin / groups)%Z :: w_kernel w) else zero_volume);
            ("bias", if (i =? 0)%Z && all_zero s && use_bias then Param 3 [subshape1 co j cout] else no_bias use_bias)]%string.
    split; [destruct (i =? 0), (all_zero s), use_bias; reflexivity|].
    destruct (i =? 0), (all_zero s), use_bias; cbn [andb app]; (split; [|reflexivity]); cbn; intros name sh H; intuition; match goal with H : (_, _) = (_, _) |- _ => now inv H end.
Qed.

Lemma C73_feature_proof : C73_feature_statement.
Proof.
  intros P w groups cin cout use_bias HP HZ make. set (sh := cout :: cin / groups :: w_kernel w).
  assert (Hm : conv_made groups cin sh = true).
  { destruct HZ as (_ & _ & _ & Hg & Di & Do). unfold conv_made, sh. cbn [nth].
    apply Z.mod_divide in Di; [|lia]. apply Z.mod_divide in Do; [|lia]. now rewrite Di, Do. }
  destruct (p_ranks P) as [|r0 rs] eqn:Er; [now apply part_ok_nonempty in HP|].
  assert (F : forall v, exists m, make v = Ok m /\ (forall name sh, In (name, sh) (named_buffers m) -> zprod sh = 0) /\
    named_parameters m = if v =? r0 then ("weight", sh)%string :: (if use_bias then [("bias", [cout])]%string else []) else []).
  { intros v. unfold make, feature_module. fold sh. rewrite Er, Hm. cbn [negb].
    destruct (is_active (r0 :: rs) v) eqn:Ea; cbn [negb].
    2:{ exists []. split; [reflexivity|]. split; [intros name sh' []|]. destruct (Z.eqb_spec v r0) as [->|]; [|reflexivity].
        apply is_active_false in Ea. exfalso. apply Ea. left. reflexivity. }
    destruct (Nat.eqb_spec (length (r0 :: rs)) 1) as [E1|E1].
    - assert (v = r0). { destruct rs; [|discriminate]. apply is_active_spec in Ea as [Ea|[]]. auto. }
      subst v. rewrite Z.eqb_refl. eexists. split; [reflexivity|]. split; [intros name sh' H; destruct use_bias; destruct H|].
      rewrite alias_parameters. reflexivity.
    - change (create_cartesian_topology (p_root P) (incl_ranks (r0 :: rs) [0]) [1]) with (Ok (mkpart (p_root P) [r0] [1])). cbn [rbind p_ranks].
      assert (Es : is_active [r0] v = (v =? r0)).
      { destruct (Z.eqb_spec v r0) as [->|Hn]; [apply is_active_spec; left; reflexivity|]. apply is_active_false. intros [H|[]]. congruence. }
      rewrite Es. destruct (v =? r0); (eexists; split; [reflexivity|]); (split; [|destruct use_bias; reflexivity]);
        destruct use_bias; cbn; intros name sh' H; intuition; match goal with H : (_, _) = (_, _) |- _ => now inv H end. }
  assert (Hh : forall v, held make v = if v =? r0 then ("weight", sh)%string :: (if use_bias then [("bias", [cout])]%string else []) else []).
  { intros v. destruct (F v) as (m & M1 & _ & M3). unfold held. now rewrite M1. }
  assert (O : forall name s, nonneg_shape s -> (forall v sh', In (name, sh') (held make v) <-> v = r0 /\ sh' = s) -> owned_once (held make) name s).
  { intros name s Hs Hi.
    apply (owned_by _ name s (repeat 1 (length s)) (fun v => if v =? r0 then Some (repeat 0 (length s)) else None)); auto.
    - apply Forall_forall. intros x Hx. apply repeat_spec in Hx. lia.
    - now rewrite repeat_length.
    - intros idx H. apply ones_zero in H. subst idx. exists r0. now rewrite Z.eqb_refl.
    - intros v idx H. destruct (v =? r0); [|discriminate]. inv H. apply zeros_one.
    - intros v v' idx H H'. destruct (Z.eqb_spec v r0); [|discriminate]. destruct (Z.eqb_spec v' r0); [|discriminate]. congruence.
    - intros v sh'. rewrite Hi. split.
      + intros [-> ->]. rewrite Z.eqb_refl. eexists. split; [reflexivity|]. now rewrite ones_shape.
      + intros (idx & H & ->). destruct (Z.eqb_spec v r0); [|discriminate]. inv H. now rewrite ones_shape. }
  split; [intros v; destruct (F v) as (m & M1 & M2 & _); exists m; auto|]. destruct HZ as (Hk & Hci & Hco & Hg & _). split; [|split].
  - intros name s H. unfold conv_parameters in H. fold sh in H.
    assert (H' : (name, s) = ("weight", sh)%string \/ (use_bias = true /\ (name, s) = ("bias", [cout])%string)).
    { destruct use_bias; cbn [with_bias firstn In] in H; intuition. }
    destruct H' as [E|[Ub E]]; injection E as -> ->; apply O.
    + constructor; [auto|]. constructor; [apply Z.div_pos; auto|auto].
    + intros v sh'. rewrite Hh. destruct (Z.eqb_spec v r0); [|cbn [In]; intuition].
      subst v. destruct use_bias; cbn [In]; intuition congruence.
    + repeat constructor; auto.
    + intros v sh'. rewrite Hh, Ub. destruct (Z.eqb_spec v r0); [|cbn [In]; intuition].
      subst v. cbn [In]; intuition congruence.
  - intros v. rewrite Hh. destruct (v =? r0); [|constructor]. destruct use_bias; names.
  - intros v name sh' H. rewrite Hh in H. destruct (v =? r0); [|destruct H]. unfold conv_parameters.
    destruct use_bias; cbn [In] in H; cbn [with_bias firstn map fst In]; intuition congruence.
Qed.

Lemma C73_batchnorm_proof : C73_batchnorm_statement.
Proof.
  intros P nf affine track HP L2 Hn s make. remember (length (p_shape P) - 2)%nat as d eqn:Ed.
  assert (LP : length (p_shape P) = S (S d)) by lia. clear Ed. set (n1 := nth 1 (p_shape P) 0) in *.
  pose proof (st_ok P d HP LP) as HQ. pose proof (st_shape P d LP) as SQ. fold n1 in SQ.
  assert (P1 : 0 < n1).
  { destruct HQ as (_ & _ & Hp & _). rewrite SQ in Hp. exact (Forall_inv (Forall_inv_tail Hp)). }
  assert (Sh : forall idx v, worker_at P idx v -> internal_shape (length (p_shape P)) (local_num_features P nf idx) =
             1 :: subshape1 n1 (nth 1 idx 0) nf :: repeat 1 d).
  { intros idx v Hv. pose proof (proj1 Hv) as Hi. unfold n1, local_num_features, internal_shape, compute_stop_index, compute_start_index, compute_subshape.
    destruct (p_shape P) as [|a [|b r]] eqn:Es; cbn [length] in LP; try lia.
    apply valid_index_cons_inv in Hi as (i & t & -> & Hi0 & Hi). apply valid_index_cons_inv in Hi as (j & t' & -> & Hj & Hi).
    cbn [length repeat upd map3 map2 nth]. replace (length r) with d by lia. do 2 f_equal. lia. }
  assert (F : forall v, In v (p_ranks P) -> exists m, make v = Ok m /\
    forall idx, worker_at P idx v -> named_parameters m =
      if affine && is_active (p_ranks (storage P d)) v
      then [("gamma", 1 :: subshape1 n1 (nth 1 idx 0) nf :: repeat 1 d); ("beta", 1 :: subshape1 n1 (nth 1 idx 0) nf :: repeat 1 d)]%string else []).
  { intros v Hv. destruct (worker_at_exists P v HP Hv) as [idx Hi]. unfold make, batchnorm_module. pose proof Hi as Hi'.
    apply index_in_spec in Hi'; auto. rewrite Hi', (st_part P d HP LP). cbn [rbind]. eexists. split; [reflexivity|].
    intros idx' Hj. rewrite (worker_at_fun P _ _ v HP Hj Hi). rewrite (Sh idx v Hi).
    destruct track, affine, (is_active (p_ranks (storage P d)) v); reflexivity. }
  assert (Sub : forall v, In v (p_ranks (storage P d)) -> In v (p_ranks P)).
  { intros v Hv. destruct (worker_at_exists _ v HQ Hv) as [idx Hi]. destruct (st_index P d LP idx v Hi) as (c & -> & Hc).
    apply (proj1 (st_worker P d HP LP c v)) in Hi. eapply worker_at_In; eauto. }
  assert (Hh : forall v, held make v = [] \/ exists idx, worker_at (storage P d) idx v /\ affine = true /\
    held make v = [("gamma", 1 :: subshape1 n1 (nth 1 idx 0) nf :: repeat 1 d); ("beta", 1 :: subshape1 n1 (nth 1 idx 0) nf :: repeat 1 d)]%string).
  { intros v. destruct (in_dec Z.eq_dec v (p_ranks P)) as [Hv|Hv].
    - destruct (F v Hv) as (m & M1 & M2). destruct (worker_at_exists P v HP Hv) as [idx Hi]. specialize (M2 idx Hi).
      unfold held. rewrite M1. destruct affine; cbn [andb] in M2; [|left; exact M2].
      destruct (is_active (p_ranks (storage P d)) v) eqn:Ea; [|left; exact M2]. right. apply is_active_spec in Ea.
      destruct (worker_at_exists _ v HQ Ea) as [idx' Hi']. exists idx'. split; [exact Hi'|]. split; [reflexivity|]. rewrite M2.
      destruct (st_index P d LP idx' v Hi') as (c & -> & Hc). apply (proj1 (st_worker P d HP LP c v)) in Hi'. now rewrite (worker_at_fun P _ _ v HP Hi Hi').
    - left. unfold held, make, batchnorm_module. apply index_in_none in Hv. now rewrite Hv. }
  assert (Hs : forall idx v, affine = true -> worker_at (storage P d) idx v ->
    held make v = [("gamma", 1 :: subshape1 n1 (nth 1 idx 0) nf :: repeat 1 d); ("beta", 1 :: subshape1 n1 (nth 1 idx 0) nf :: repeat 1 d)]%string).
  { intros idx v Ha Hi. pose proof (worker_at_In _ _ _ Hi) as Hv. destruct (F v (Sub v Hv)) as (m & M1 & M2). unfold held. rewrite M1.
    apply is_active_spec in Hv. rewrite Ha, Hv in M2. apply M2. destruct (st_index P d LP idx v Hi) as (c & -> & Hc). exact (proj1 (st_worker P d HP LP c v) Hi). }
  assert (O : forall name, affine = true -> (name = "gamma" \/ name = "beta")%string -> owned_once (held make) name s).
  { intros name Ha Hname. apply (owned_held (storage P d) _ name s (p_shape (storage P d)) (fun _ => true) (fun i => i) (fun i => i)); auto.
    - unfold s. constructor; [lia|]. constructor; [auto|]. apply Forall_forall. intros x Hx. apply repeat_spec in Hx. lia.
    - apply HQ.
    - rewrite SQ. unfold s. cbn [length]. now rewrite !repeat_length.
    - assert (B : forall c, 0 <= c < n1 -> block_shape (balanced s (p_shape (storage P d))) (pt d c) = 1 :: subshape1 n1 c nf :: repeat 1 d).
      { intros c Hc. rewrite SQ. unfold s, pt. rewrite !bal_shape_cons, unit_sub by lia. do 2 f_equal.
        pose proof (ones_shape (repeat 1 d)) as Q. now rewrite repeat_length in Q. }
      intros v sh. split.
      + intros H. destruct (Hh v) as [E|(idx & Hi & _ & E)]; rewrite E in H; [destruct H|]. exists idx. split; [exact Hi|]. split; [reflexivity|].
        destruct (st_index P d LP idx v Hi) as (c & -> & Hc). rewrite B by exact Hc. cbn [pt nth In] in H. intuition congruence.
      + intros (idx & Hi & _ & ->). rewrite (Hs idx v Ha Hi). destruct (st_index P d LP idx v Hi) as (c & -> & Hc). rewrite B by exact Hc.
        cbn [pt nth In]. destruct Hname as [->| ->]; auto. }
  split; [|split; [|split]].
  - intros v Hv. destruct (F v Hv) as (m & M & _). eauto.
  - intros name s' H. destruct affine; [|destruct H]. destruct H as [H|[H|[]]]; injection H as <- <-; apply O; auto.
  - intros v. destruct (Hh v) as [E|(idx & _ & _ & E)]; rewrite E; [constructor|names].
  - intros v name sh H. destruct (Hh v) as [E|(idx & _ & -> & E)]; rewrite E in H; [destruct H|]. cbn [map fst In] in *. intuition congruence.
Qed.

Theorem C73_linear : C73_linear_statement.
Proof. exact C73_linear_proof. Qed.
Theorem C73_feature_conv : C73_feature_statement.
Proof. exact C73_feature_proof. Qed.
Theorem C73_channel_conv : C73_channel_statement.
Proof. exact C73_channel_proof. Qed.
Theorem C73_general_conv : C73_general_statement.
Proof. exact C73_general_proof. Qed.
Theorem C73_batchnorm : C73_batchnorm_statement.
Proof. exact C73_batchnorm_proof. Qed.

(** ** Examples *)

Lemma part_given ranks shape : NoDup ranks -> shape <> [] -> pos_shape shape -> Z.of_nat (length ranks) = zprod shape -> part_ok (mkpart 0 ranks shape).
Proof. intros. split; [auto|]. split; [auto|]. split; auto. Qed.
Ltac part := apply part_given; [repeat constructor; cbn [In]; lia|discriminate|repeat constructor; lia|reflexivity].

(** Five outputs and three inputs on 2 x 2 workers: two of them keep parts of the bias. *)
Definition example_linear : part := mkpart 0 [3; 0; 2; 5] [2; 2].
Example C73_linear_example :
  parameters_are (held (fun v => Ok (linear_module example_linear 3 5 true v))) [("sublinear.weight", [5; 3]); ("sublinear.bias", [5])]%string /\
  map (held (fun v => Ok (linear_module example_linear 3 5 true v))) [3; 0; 2; 5; 1] =
  [[("sublinear.weight", [3; 2]); ("sublinear.bias", [3])]; [("sublinear.weight", [3; 1])];
   [("sublinear.weight", [2; 2]); ("sublinear.bias", [2])]; [("sublinear.weight", [2; 1])]; []]%string.
Proof.
  split; [|vm_compute; reflexivity]. apply (C73_linear example_linear 2 2 3 5 true); [part|reflexivity|lia|lia].
Qed.

(** Four output channels in two groups on 2 x 1 x 2 workers: the constructors return
    although the channels are grouped and distributed. *)
Definition example_x : part := mkpart 0 [0; 1] [1; 1; 2].
Definition example_y : part := mkpart 0 [2; 3; 0; 1] [1; 2; 2].
Definition example_w : part := mkpart 0 [4; 2; 1; 3] [2; 1; 2].
Definition example_window : window := mkwindow [3] [1] [1] [1].
Example C73_general_example :
  let make := general_module example_x example_y example_w example_window 2 4 4 true in
  parameters_are (held make) [("weight", [4; 2; 3]); ("bias", [4])]%string /\
  map make [4; 2; 1; 0; 7] =
  [Ok [("weight", Param 2 [2; 2; 3]); ("bias", Param 3 [2])]; Ok [("weight", Buffer [0]); ("bias", Buffer [0])];
   Ok [("weight", Param 2 [2; 2; 3]); ("bias", Param 3 [2])]; Ok [("weight", Buffer [0]); ("bias", Buffer [0])]; Ok []]%string.
Proof.
  assert (HP : conv_partitions example_x example_y example_w 2 1 [2]).
  { split; [part|]. split; [part|]. split; [part|]. repeat split. }
  assert (HZ : conv_sizes example_window 2 4 4).
  { split; [repeat constructor; lia|]. repeat (split; [lia|]). split; exists 2; reflexivity. }
  intros make. split; [|vm_compute; reflexivity].
  apply (C73_general_conv example_x example_y example_w 2 1 [2] example_window 2 4 4 true HP eq_refl HZ).
  intros v. unfold returns. destruct (in_dec Z.eq_dec v [0; 1; 2; 3; 4]) as [H|H].
  - cbn [In] in H. repeat (destruct H as [<-|H]; [eexists; vm_compute; reflexivity|]). destruct H.
  - unfold general_module, inactive.
    assert (N : forall l, incl l [0; 1; 2; 3; 4] -> is_active l v = false) by (intros l Hl; apply is_active_false; intros Hv; apply H, Hl, Hv).
    rewrite !N by (intros x; cbn [example_x example_y example_w p_ranks In]; tauto). eexists. reflexivity.
Qed.

(** Two workers for the input channels: the second keeps no bias, and the state has two
    names for one tensor, of which the parameters list one. *)
Definition example_cx : part := mkpart 0 [0; 1] [1; 2; 1].
Definition example_cy : part := mkpart 0 [1] [1; 1; 1].
Definition example_cw : part := mkpart 0 [1; 2] [1; 2; 1].
Example C73_channel_example :
  let make := channel_module example_cx example_cy example_cw example_window 1 3 2 true in
  (forall v, made make v) /\ parameters_are (held make) [("weight", [2; 3; 3]); ("bias", [2])]%string /\
  map (held make) [0; 1; 2] = [[]; [("weight", [2; 2; 3]); ("bias", [2])]; [("weight", [2; 1; 3])]]%string /\
  (exists m, make 1 = Ok m /\ state_keys m = ["weight"; "bias"; "conv_layer.weight"; "conv_layer.bias"]%string).
Proof.
  assert (HP : conv_partitions example_cx example_cy example_cw 1 2 (repeat 1 1)).
  { split; [part|]. split; [part|]. split; [part|]. repeat split. }
  assert (HZ : conv_sizes example_window 1 3 2).
  { split; [repeat constructor; lia|]. repeat (split; [lia|]). split; apply Z.divide_1_l. }
  intros make. destruct (C73_channel_conv example_cx example_cy example_cw 1 2 example_window 1 3 2 true HP HZ) as [A B].
  assert (E : plain 1 example_cx example_cy example_cw) by (split; [left; reflexivity|discriminate]).
  destruct (B (A E)) as [C D]. split; [exact C|]. split; [exact D|].
  split; [vm_compute; reflexivity|]. eexists. split; vm_compute; reflexivity.
Qed.

Example C73_feature_example :
  let P := mkpart 0 [5; 2] [1; 1; 2] in
  let make := feature_module P example_window 2 4 2 false in
  (forall v, made make v) /\ parameters_are (held make) [("weight", [2; 2; 3])]%string /\
  map make [5; 2; 0] = [Ok [("weight", Param 2 [2; 2; 3]); ("bias", Nothing)]; Ok [("weight", Buffer [0]); ("bias", Nothing)]; Ok []]%string.
Proof.
  intros P make. destruct (C73_feature_conv P example_window 2 4 2 false) as [A B].
  - part.
  - split; [repeat constructor; lia|]. repeat (split; [lia|]). split; [exists 2|exists 1]; reflexivity.
  - split; [exact A|]. split; [exact B|]. vm_compute. reflexivity.
Qed.

(** Three features on 2 x 2 workers. *)
Example C73_batchnorm_example :
  let P := mkpart 0 [0; 1; 2; 3] [2; 2; 1] in
  let make := batchnorm_module P 3 true true in
  parameters_are (held make) [("gamma", [1; 3; 1]); ("beta", [1; 3; 1])]%string /\
  map (held make) [0; 1; 2; 3] =
  [[("gamma", [1; 2; 1]); ("beta", [1; 2; 1])]; [("gamma", [1; 1; 1]); ("beta", [1; 1; 1])]; []; []]%string.
Proof.
  intros P make. destruct (C73_batchnorm P 3 true true) as [A B]; [part|cbn; lia|lia|]. split; [exact B|]. vm_compute. reflexivity.
Qed.

Print Assumptions C73_linear.
Print Assumptions C73_feature_conv.
Print Assumptions C73_channel_conv.
Print Assumptions C73_general_conv.
Print Assumptions C73_batchnorm.
