(** Proofs about networks of layers on one partition. *)

From Coq Require Import RelationClasses.
From Verif Require Import Prelude SpecIndex SpecLayout SpecPartition SpecHalo ModelSlicing ModelDecomposition
  ModelPartition ProofSlicing ProofDecomposition ProofPartition Ring Tensor ModelCollectives PropCollectives PropExchange
  ModelUtilities PropUtilities Blocks P2P Rounds ModelRepartition ProofTransfer PropRepartition ModelHaloMixin ProofHaloMixin PropHaloMixin
  ModelHaloExchange ProofHaloLinks ProofHaloZones PropHaloExchange ModelFeatureLayer SpecFeature ProofFeatureLayer PropFeatureLayer
  PropFeatureConv ModelGradients ProofGradients ModelFeatureGrad SpecFeatureGrad ProofFeatureGrad
  PropFeatureGrad ModelMaxPoolGrad SpecMaxPoolGrad ProofMaxPoolGrad PropMaxPoolGrad ModelChain SpecChain.
Local Open Scope Z_scope.

(** * Steps that give equal results on equal states *)

Section Proper.
  Context {R : CRing}.
  Notation tensor := (tensor R).
  Notation hst := (@hst R).
  Implicit Types (t : tensor) (s : hst).

  Definition same {A} (eq : A -> A -> Prop) (a b : result A) : Prop :=
    match a, b with Ok x, Ok y => eq x y | Raise _, Raise _ => True | _, _ => False end.

  Lemma step_ok world (f : Z -> hst -> result hst) :
    (forall v s s', eqH s s' -> same eqH (f v s) (f v s')) -> round_ok world eqH steq (worker_step f).
  Proof.
    intros Hf. apply (round_ok_local world eqH steq (fun v => [fun s => match f v s with Ok s' => s' | Raise _ => failed end])).
    intros v g s s' [<-|[]] E. specialize (Hf v s s' E). unfold same in Hf.
    destruct (f v s), (f v s'); try contradiction; auto. reflexivity.
  Qed.

  Lemma set_same (r r' : result tensor) s s' : same steq r r' -> eqH s s' ->
    same eqH (rbind r (fun t => Ok (set_t t s))) (rbind r' (fun t => Ok (set_t t s'))).
  Proof. intros Hr Hs. destruct r, r'; cbn in *; auto. now apply set_t_proper. Qed.

  Lemma removelast_same (a b : list tensor) : Forall2 steq a b -> Forall2 steq (removelast a) (removelast b).
  Proof. intros F. induction F as [|x y a b Hx F IH]; cbn; [constructor|]. destruct F; constructor; auto. Qed.

  Lemma pop_same s s' : eqH s s' -> same (fun p q => steq (fst p) (fst q) /\ eqH (snd p) (snd q)) (pop s) (pop s').
  Proof.
    intros [E1 E2 E3 E4]. unfold pop. pose proof (last_steq _ _ (tzeros []) E4) as El. pose proof (removelast_same _ _ E4) as Er.
    destruct E4; cbn [same]; auto. split; [exact El|]. constructor; auto.
  Qed.

  Lemma pad_dim_same value d l r t t' : steq t t' -> steq (pad_dim value d l r t) (pad_dim value d l r t').
  Proof. intros [E V]. split; cbn [pad_dim tshape tat]; [now rewrite E|]. intros i. now rewrite E, V. Qed.

  Lemma f_pad_same value pad : forall dims t t', steq t t' ->
    match f_pad value pad dims t, f_pad value pad dims t' with Some a, Some b => steq a b | None, None => True | _, _ => False end.
  Proof.
    induction pad as [pad IH] using (well_founded_induction (Wf_nat.well_founded_ltof _ (@length Z))).
    intros dims t t' E. destruct pad as [|l [|r pad]]; cbn; auto. destruct dims; cbn; auto.
    apply IH; [unfold Wf_nat.ltof; cbn; lia|]. now apply pad_dim_same.
  Qed.

  Lemma padded_same value u t t' : steq t t' -> same steq (feature_padded value u t) (feature_padded value u t').
  Proof.
    intros E. unfold feature_padded. destruct (_ =? 0); cbn; auto. destruct E as [Es V]. rewrite Es.
    pose proof (f_pad_same value (distdl_padding_to_torch_padding (map2 (fun a b => (fst a + fst b, snd a + snd b)) (u_padding u) (u_halo u)))
      (length (tshape t')) t t' (conj Es V)) as F. now destruct (f_pad _ _ _ t), (f_pad _ _ _ t').
  Qed.

  Lemma pad_backward_same total t t' : steq t t' -> same steq (pad_backward total t) (pad_backward total t').
  Proof.
    intros E. unfold pad_backward. destruct (_ =? 0); cbn; auto. destruct E as [Es V]. rewrite Es.
    pose proof (f_pad_same rzero (map Z.opp (distdl_padding_to_torch_padding total)) (length (tshape t')) t t' (conj Es V)) as F.
    now destruct (f_pad _ _ _ t), (f_pad _ _ _ t').
  Qed.

  Lemma write_same t sl m m' : steq m m' -> steq (write_slice t sl m) (write_slice t sl m').
  Proof.
    intros [E V]. unfold write_slice. rewrite E. destruct (zlist_eqb _ _); [|reflexivity]. split; [reflexivity|].
    cbn [tat]. intros i. now rewrite V.
  Qed.

  Lemma sliding_back_same K w shape t t' : steq t t' -> steq (sliding_backward K w shape t) (sliding_backward K w shape t').
  Proof.
    intros [E V]. split; [reflexivity|]. cbn [sliding_backward tat]. rewrite E. intros [|b [|ch q]]; auto.
    apply sumf_ext. intros c _. apply sumf_ext. intros o _. apply sumf_ext. intros k _. now rewrite V.
  Qed.

  Definition value_choice (choose : @choice R) : Prop := forall g g', (forall k, g k = g' k) -> choose g = choose g'.

  Lemma scatter_same choose w shape t t' (d d' : tensor) : value_choice choose -> steq t t' -> steq d d' ->
    steq (max_scatter (max_positions choose w t) shape d) (max_scatter (max_positions choose w t') shape d').
  Proof.
    intros HC [E V] [Ed Vd]. split; [reflexivity|]. cbn [max_scatter tat]. rewrite Ed. intros [|b [|c q]]; auto.
    apply sumf_ext. intros o _. rewrite Vd. unfold max_positions.
    rewrite (HC (fun k => tat t (b :: c :: window_point w o k)) (fun k => tat t' (b :: c :: window_point w o k))); auto.
  Qed.

  Variable P : part.

  Lemma pad_step_ok world w (value : R) shape : round_ok world eqH steq (worker_step (pad_step P w value shape)).
  Proof.
    apply step_ok. intros v s s' E. unfold pad_step. apply set_same; auto. unfold halo_input.
    destruct (feature_setup P w shape v) as [[u|]|]; cbn; auto; [apply padded_same|]; apply E.
  Qed.

  Lemma output_step_ok world w (f : @kernel R) cout shape : kernel_of_values f -> round_ok world eqH steq (worker_step (output_step P w f cout shape)).
  Proof.
    intros Hf. apply step_ok. intros v s s' E. unfold output_step. apply set_same; auto. unfold feature_output.
    destruct (feature_setup P w shape v) as [[u|]|]; cbn [rbind same]; auto; [|apply E].
    pose proof (sliding_steq f cout w (h_t s) (h_t s') (u_needed u) Hf (eh_t _ _ E)) as F.
    destruct (torch_sliding _ _ _ (slice_tensor (h_t s) _)), (torch_sliding _ _ _ (slice_tensor (h_t s') _)); cbn; auto.
  Qed.

  Lemma cotangent_step_ok world w (bk : @backward_of R) shape : match bk with BLinear _ => True | BMax choose => value_choice choose end ->
    round_ok world eqH steq (worker_step (cotangent_step P w bk shape)).
  Proof.
    intros HC. apply step_ok. intros v s s' E. unfold cotangent_step. pose proof (pop_same s s' E) as Ep.
    destruct (pop s) as [[p q]|], (pop s') as [[p' q']|]; cbn in Ep; cbn [rbind]; auto; try contradiction.
    destruct Ep as [Ep Eq]. cbn [fst snd]. apply set_same; auto. destruct E as [[Es Et] _ _ _].
    destruct bk as [K|choose]; unfold feature_cotangent, max_cotangent; destruct (feature_setup P w shape v) as [[u|]|]; cbn [rbind same]; auto.
    - apply write_same, sliding_back_same. now split.
    - now split.
    - destruct Ep as [Ep Vp]. rewrite Ep. apply write_same. apply scatter_same; auto; [|now split].
      apply read_proper. now split.
    - now split.
  Qed.

  Lemma gradient_step_ok world w shape : round_ok world eqH steq (worker_step (gradient_step (R := R) P w shape)).
  Proof.
    apply step_ok. intros v s s' E. unfold gradient_step. apply set_same; auto. unfold feature_gradient.
    destruct (feature_setup P w shape v) as [[u|]|]; cbn [rbind same]; auto; [apply pad_backward_same|]; apply E.
  Qed.

  Lemma point_step_ok world act : round_ok world eqH steq (worker_step (point_step (R := R) act)).
  Proof.
    apply step_ok. intros v s s' E. cbn [point_step same]. apply set_t_proper; auto. destruct E as [[Es Et] _ _ _].
    split; cbn [tshape tat]; auto. intros i. now rewrite Et.
  Qed.

  Lemma slope_step_ok world slope : round_ok world eqH steq (worker_step (slope_step (R := R) slope)).
  Proof.
    apply step_ok. intros v s s' E. unfold slope_step. pose proof (pop_same s s' E) as Ep.
    destruct (pop s) as [[p q]|], (pop s') as [[p' q']|]; cbn in Ep; cbn [rbind same]; auto; try contradiction.
    destruct Ep as [[Ep Vp] Eq]. cbn [fst snd]. apply set_t_proper; auto. destruct E as [[Es Et] _ _ _].
    split; cbn [tshape tat]; auto. intros i. now rewrite Et, Vp.
  Qed.

  Lemma keep_result_ok world : round_ok world eqH steq (worker_step (keep_result (R := R))).
  Proof. apply step_ok. intros v s s' E. cbn [keep_result same]. destruct E. constructor; cbn; auto. Qed.
End Proper.

(** * One exchange in lock-step *)

Section Lockstep.
  Context {R : CRing}.
  Notation tensor := (tensor R).
  Notation hst := (@hst R).
  Notation round := (@round hst tensor).

  Lemma sync_rounds_ext (l : list round) (S0 S1 : Z -> hst) : (forall u, S0 u = S1 u) ->
    forall v, sync_rounds l S0 v = sync_rounds l S1 v.
  Proof.
    revert S0 S1. induction l as [|rd l IH]; intros S0 S1 E v; [apply E|]. cbn [sync_rounds fold_left].
    apply IH. intros u. now apply sync1_ext.
  Qed.

  Lemma sync_step f (S0 : Z -> hst) v : sync_rounds [worker_step f] S0 v = match f v (S0 v) with Ok s => s | Raise _ => failed end.
  Proof. reflexivity. Qed.

  Lemma sync_store (S0 : Z -> hst) v :
    sync_rounds [store_round] S0 v = mkhst (h_t (S0 v)) (h_l (S0 v)) (h_r (S0 v)) (h_hist (S0 v) ++ [h_t (S0 v)]).
  Proof. reflexivity. Qed.

  (** The exchanges leave the rest of the worker alone. *)
  Lemma exchange_hist pack unpack lrecv rrecv lsend rsend (msgs : Z -> Z -> list tensor) (s : hst) :
    (forall set sl s, (set = set_l \/ set = set_r) -> h_hist (pack set sl s) = h_hist s) ->
    let l := exchange (R := R) pack unpack lrecv rrecv lsend rsend in
    h_hist (unpack_all msgs l (acts_run l s)) = h_hist s.
  Proof.
    intros Hp l. unfold l, exchange, recv_link, send_link, local_if.
    assert (A : h_hist (if k_on rsend then pack set_r (k_sl rsend) (if k_on lsend then pack set_l (k_sl lsend) s else s)
                        else if k_on lsend then pack set_l (k_sl lsend) s else s) = h_hist s).
    { destruct (k_on rsend), (k_on lsend); rewrite ?Hp; auto. }
    revert A. set (s1 := if k_on rsend then _ else _). intros A.
    assert (E : acts_run (exchange (R := R) pack unpack lrecv rrecv lsend rsend) s = s1).
    { unfold exchange, recv_link, send_link, local_if, s1. destruct (k_on lrecv), (k_on rrecv), (k_on lsend), (k_on rsend); reflexivity. }
    unfold exchange, recv_link, send_link, local_if in E. rewrite E. clear E. clearbody s1.
    destruct (k_on lrecv), (k_on rrecv), (k_on lsend), (k_on rsend); cbn [unpack_all]; rewrite <- A;
      repeat match goal with |- context [msgs ?a ?b] => destruct (msgs a b); cbn [h_hist set_t] end; reflexivity.
  Qed.

  Lemma halo_hist P shape recv send rd l (S0 : Z -> hst) v :
    rd = forward_round P shape recv send \/ rd = backward_round P shape recv send ->
    h_hist (sync_rounds (map rd l) S0 v) = h_hist (S0 v).
  Proof.
    intros Hrd. revert S0. induction l as [|i l IH]; intros S0; [reflexivity|]. cbn [map sync_rounds fold_left].
    unfold sync_rounds in IH. rewrite IH. unfold sync1.
    destruct Hrd as [-> | ->]; unfold forward_round, backward_round; destruct (takes_part P v); try reflexivity;
      apply exchange_hist; intros set sl s [-> | ->]; reflexivity.
  Qed.

  Section Given.
    Variables (world : list Z) (P : part) (L : layout) (H : halos).
    Variables (shape : Z -> list Z) (recv send : Z -> list (Z * Z)).
    Hypothesis HG : halo_given world P L H.
    Hypothesis HPl : planned P L H shape recv send.

    (** It is one that some execution of the halo layer alone can give. *)
    Lemma forward_alone (x : Z -> tensor) (S0 S1 : Z -> hst) : (forall v, S1 v = set_t (x v) (S0 v)) ->
      exists eager g, ends world (history_rounds P shape recv send ([] ++ [HForward x])) S0 eager g /\
        forall v, In v world ->
          steq (halo_result g v) (h_t (sync_rounds (map (forward_round P shape recv send) (seq 0 (length (p_shape P)))) S1 v)).
    Proof.
      intros E. exists (fun _ _ _ _ => true).
      destruct (async_ends _ _ _ _ (fun _ _ _ _ => true) (halo_async world P L H shape recv send HG HPl ([] ++ [HForward x]) S0)) as [g Hg].
      exists g. split; auto. intros v Hv.
      destruct (ends_result world P L H shape recv send HG HPl
        (map (forward_round P shape recv send) (seq 0 (length (p_shape P)))) x [] (HForward x) S0 _ g v Hv eq_refl Hg) as (S' & E' & ->).
      rewrite (sync_rounds_ext _ S1 (loaded x S0)); [exact E'|]. intros u. rewrite E. reflexivity.
    Qed.

    Lemma backward_alone (x : Z -> tensor) (S0 S1 : Z -> hst) : (forall v, S1 v = set_t (x v) (S0 v)) ->
      exists eager g, ends world (history_rounds P shape recv send ([] ++ [HBackward x])) S0 eager g /\
        forall v, In v world ->
          steq (halo_result g v) (h_t (sync_rounds (map (backward_round P shape recv send) (rev (seq 0 (length (p_shape P))))) S1 v)).
    Proof.
      intros E. exists (fun _ _ _ _ => true).
      destruct (async_ends _ _ _ _ (fun _ _ _ _ => true) (halo_async world P L H shape recv send HG HPl ([] ++ [HBackward x]) S0)) as [g Hg].
      exists g. split; auto. intros v Hv.
      destruct (ends_result world P L H shape recv send HG HPl
        (map (backward_round P shape recv send) (rev (seq 0 (length (p_shape P))))) x [] (HBackward x) S0 _ g v Hv eq_refl Hg) as (S' & E' & ->).
      rewrite (sync_rounds_ext _ S1 (loaded x S0)); [exact E'|]. intros u. rewrite E. reflexivity.
    Qed.
  End Given.
End Lockstep.
