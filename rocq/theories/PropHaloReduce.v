(** Gradients of halo exchanges in machine arithmetic: C76. *)

From Coq Require Import RelationClasses Sorting.Permutation.
From Verif Require Import Prelude SpecIndex SpecLayout SpecPartition SpecHalo SpecSum ModelSlicing ModelDecomposition
  ModelPartition ProofSlicing ProofDecomposition ProofPartition PropPartition Ring Tensor Blocks P2P Rounds
  ModelRepartition ProofRepartition ProofTransfer PropRepartition ModelHaloMixin ProofHaloMixin PropHaloMixin
  ModelHaloExchange ProofHaloLinks ProofHaloZones PropHaloExchange ProofFeatureGrad PropFeatureLayer
  ModelReduce PropReduce ModelHaloReduce SpecHaloSum ProofSimulation ProofHaloReduce ProofHaloForward Schedule.

(** Whatever the history of calls and the order in which messages arrive: an entry
    of the block gets the cotangents of all its copies, each once. *)
Definition C76_statement : Prop :=
  forall (R : CRing) (M : machine R) (world : list Z) (P : part) (L : layout) (H : halos)
    (shape : Z -> list Z) (recv send : Z -> list (Z * Z))
    (pre : list (@call R)) (dy : Z -> tensor R) (init : Z -> @hst R) eager g,
    halo_given world P L H -> halos_narrow L H -> planned P L H shape recv send ->
    Forall (call_ok P L H) (pre ++ [HBackward dy]) ->
    ends world (history_rounds_by P shape recv send (m_add M) (pre ++ [HBackward dy])) init eager g ->
    (forall idx v, worker_at P idx v ->
       tshape (halo_result g v) = padded_shape L H idx /\
       (forall p q C, in_bulk L H idx p q -> copies P L H (vadd (block_lo L idx) p) C ->
          evaluates M (cotangents dy C) (tat (halo_result g v) q)) /\
       (* nothing remains in the halos *)
       (forall q, valid_index (padded_shape L H idx) q -> (forall p, ~ in_bulk L H idx p q) ->
          evaluates M [] (tat (halo_result g v) q))) /\
    (forall v, In v world -> ~ In v (p_ranks P) -> halo_result g v = dy v).

(** Every execution ends, whatever the addition. *)
Definition C76_safe_statement : Prop :=
  forall (R : CRing) (M : machine R) (world : list Z) (P : part) (L : layout) (H : halos)
    (shape : Z -> list Z) (recv send : Z -> list (Z * Z)) (calls : list (@call R)) (init : Z -> @hst R) eager,
    halo_given world P L H -> planned P L H shape recv send ->
    let prog := rounds_prog (history_rounds_by P shape recv send (m_add M) calls) in
    (exists N, forall n g, run world prog init eager n g -> (n <= N)%nat) /\
    (forall n g, run world prog init eager n g -> ~ done world prog g -> exists g', step world prog eager g g').

(** The forward pass only copies: C25 holds for it, whatever backward passes added before. *)
Definition C76_forward_statement : Prop :=
  forall (R : CRing) (M : machine R) (world : list Z) (P : part) (L : layout) (H : halos)
    (shape : Z -> list Z) (recv send : Z -> list (Z * Z)) (G : tensor R)
    (pre : list (@call R)) (x : Z -> tensor R) (init : Z -> @hst R) eager g,
    halo_given world P L H -> halos_narrow L H -> planned P L H shape recv send ->
    Forall (call_ok P L H) (pre ++ [HForward x]) ->
    (forall idx v p, worker_at P idx v -> valid_index (block_shape L idx) p ->
       tat (x v) (vadd (left_halo H idx) p) = tat G (vadd (block_lo L idx) p)) ->
    ends world (history_rounds_by P shape recv send (m_add M) (pre ++ [HForward x])) init eager g ->
    (forall idx v, worker_at P idx v ->
       tshape (halo_result g v) = padded_shape L H idx /\
       (forall q, valid_index (padded_shape L H idx) q ->
          valid_index (layout_shape L) (global_point L H idx q) /\
          tat (halo_result g v) q = tat G (global_point L H idx q))) /\
    (forall v, In v world -> ~ In v (p_ranks P) -> teq (halo_result g v) (x v)).

(** ** Proofs *)

Section Given.
  Context {R : CRing}.
  Variables (M : machine R) (world : list Z) (P : part) (L : layout) (H : halos).
  Variables (shape : Z -> list Z) (recv send : Z -> list (Z * Z)).
  Variables (pre : list (@call R)) (dy : Z -> tensor R) (init : Z -> @hst R) (eager : Z -> Z -> Z -> nat -> bool).
  Variable g : @gst (@hst R) (tensor R).
  Hypothesis HG : halo_given world P L H.
  Hypothesis HN : halos_narrow L H.
  Hypothesis HPl : planned P L H shape recv send.
  Hypothesis Hc : Forall (call_ok P L H) (pre ++ [HBackward dy]).
  Hypothesis He : ends world (history_rounds_by P shape recv send (m_add M) (pre ++ [HBackward dy])) init eager g.

  Lemma counting_ok k : Forall (call_ok P L H) (map (fun c => call_shapes c k) pre ++ [HBackward (one_entry dy k)]).
  Proof.
    apply Forall_app in Hc as [H1 H2]. apply Forall_app. split.
    - clear - H1. induction H1 as [|c l Hx Hl IH]; cbn [map]; constructor; auto. destruct c as [x|x]; exact Hx.
    - constructor; [|constructor]. inv H2. auto.
  Qed.

  Lemma counting_shape k gk v : In v world ->
    ends world (history_rounds P shape recv send (map (fun c => call_shapes c k) pre ++ [HBackward (one_entry dy k)]))
      (fun v => init_shapes (init v) k) eager gk ->
    tshape (halo_result gk v) = tshape (dy v).
  Proof.
    intros Hv Hk.
    assert (Hcf : Forall (call_ok P L H) ([] ++ [HForward (one_entry dy k)])).
    { pose proof (counting_ok k) as K. apply Forall_app in K as [_ K]. inv K. constructor; [auto|constructor]. }
    destruct (async_ends _ _ _ _ (fun _ _ _ _ => true)
      (halo_async world P L H shape recv send HG HPl ([] ++ [HForward (one_entry dy k)]) (fun _ => mkhst (tzeros []) (tzeros []) (tzeros []) [])))
      as [gf Hf].
    pose proof HG as (_ & _ & _ & _ & _ & G6).
    destruct (C26_halo_exchange_adjoint Zring world P L H shape recv send [] _ (one_entry dy k) (one_entry dy k) _ _ _ _ gf gk
      HG (narrow_fits L H G6 HN) HPl Hcf (counting_ok k) (fun u _ _ => eq_refl) Hf Hk) as [S1 _].
    exact (proj2 (S1 v Hv)).
  Qed.

  Lemma result_counts idx v q : worker_at P idx v -> valid_index (padded_shape L H idx) q ->
    tshape (halo_result g v) = padded_shape L H idx /\
    (forall p C, in_bulk L H idx p q -> copies P L H (vadd (block_lo L idx) p) C ->
       evaluates M (cotangents dy C) (tat (halo_result g v) q)) /\
    ((forall p, ~ in_bulk L H idx p q) -> evaluates M [] (tat (halo_result g v) q)).
  Proof.
    intros Hw Hq. destruct (counted M dy P shape recv send world pre init eager g He) as (Rz & HR & HK).
    pose proof HG as (G1 & G2 & G3 & G4 & G5 & G6).
    destruct (HR v) as [T1 T2].
    assert (Hin : In v world) by (apply G2; eapply worker_at_In; eauto).
    assert (K0 : tat (Rz v None) q = 0).
    { destruct (HK None) as (g0 & He0 & E0). rewrite <- E0.
      apply (zero_backward world P L H shape recv send HG HN HPl (map (fun c => call_shapes c None) pre) (one_entry dy None)
        (fun v => init_shapes (init v) None) eager g0 (counting_ok None) He0 idx v q Hw Hq). reflexivity. }
    destruct (T2 q) as [_ T3]. destruct (T3 K0) as (l & Hl & Cl).
    assert (KB := fun u q0 gk Hk => unit_backward world P L H shape recv send HG HN HPl (map (fun c => call_shapes c (Some (u, q0))) pre)
      (one_entry dy (Some (u, q0))) (fun v => init_shapes (init v) (Some (u, q0))) eager gk (counting_ok (Some (u, q0))) Hk
      idx v q Hw Hq u q0 (fun _ _ => eq_refl)).
    split; [|split].
    - destruct (HK None) as (g0 & He0 & E0). rewrite <- (T1 None), <- E0.
      rewrite (counting_shape None g0 v Hin He0). apply Forall_app in Hc as [_ Hc']. inv Hc'. auto.
    - intros p C Hp [HC1 HC2]. apply ev_order with (l := map (entry_term dy) l); [|exact Hl].
      unfold cotangents. apply Permutation_map. apply (proj2 (Permutation_count_occ entry_dec l C)). intros [u q0].
      destruct (HK (Some (u, q0))) as (gk & Hk & Ek). destruct (KB u q0 gk Hk) as [KB1 _]. specialize (KB1 p Hp).
      specialize (Cl (u, q0)). rewrite <- Ek in Cl. apply Nat2Z.inj. rewrite <- Cl.
      destruct (in_dec entry_dec (u, q0) C) as [Hi|Hi].
      + rewrite (proj1 KB1) by (now apply HC2). rewrite (proj1 (NoDup_count_occ' entry_dec C) HC1 _ Hi). reflexivity.
      + rewrite (proj2 KB1) by (intros X; apply Hi, HC2; exact X).
        rewrite (proj1 (count_occ_not_In entry_dec C (u, q0)) Hi). reflexivity.
    - intros Hh. apply ev_order with (l := map (entry_term dy) l); [|exact Hl].
      assert (l = []); [|subst l; apply Permutation_refl].
      destruct l as [|[u q0] l]; auto. exfalso.
      destruct (HK (Some (u, q0))) as (gk & Hk & Ek). destruct (KB u q0 gk Hk) as [_ KB2].
      specialize (Cl (u, q0)). rewrite <- Ek, (KB2 Hh) in Cl. cbn [count_occ] in Cl.
      destruct (entry_dec (u, q0) (u, q0)); [|congruence]. cbn in Cl. lia.
  Qed.

  Lemma outside_result v : In v world -> ~ In v (p_ranks P) -> halo_result g v = dy v.
  Proof.
    intros Hv Hn. destruct He as (n & Hr & Hd).
    assert (Et : takes_part P v = false).
    { unfold takes_part. replace (is_active (p_ranks P) v) with false; auto. symmetry. now apply is_active_false. }
    assert (Hloc : forall r a, In a (code (rounds_prog (history_rounds_by P shape recv send (m_add M) (pre ++ [HBackward dy]))) v r) -> exists f, a = ALocal f).
    { intros r a Ha. rewrite rounds_code in Ha.
      destruct (nth_in_or_default r (history_rounds_by P shape recv send (m_add M) (pre ++ [HBackward dy])) (fun _ => [])) as [Hi|Hi];
        [|rewrite Hi in Ha; destruct Ha].
      revert Hi Ha. generalize (nth r (history_rounds_by P shape recv send (m_add M) (pre ++ [HBackward dy])) (fun _ => [])). intros rd Hi Ha.
      unfold history_rounds_by in Hi. apply in_flat_map in Hi as (c & _ & Hi).
      destruct c as [x|x]; cbn [call_rounds_by app] in Hi; destruct Hi as [<-|Hi];
        try (destruct Ha as [<-|[]]; eexists; reflexivity);
        apply in_app_or in Hi as [Hi|[<-|[]]]; try (destruct Ha as [<-|[]]; eexists; reflexivity);
        apply in_map_iff in Hi as (i & <- & _).
      - unfold forward_round in Ha. rewrite Et in Ha. destruct Ha.
      - unfold backward_round_by in Ha. rewrite Et in Ha. destruct Ha. }
    pose proof (local_done world _ init eager v Hloc n g Hv Hr Hd) as E. unfold halo_result. rewrite E.
    unfold rounds_prog, history_rounds_by. rewrite flat_map_app, map_app, concat_app, acts_run_app.
    generalize (acts_run (concat (map (fun rd => rd v) (flat_map (call_rounds_by P shape recv send (m_add M)) pre))) (init v)). intros s.
    cbn [flat_map call_rounds_by]. rewrite app_nil_r. cbn [app map concat]. rewrite map_app, concat_app.
    assert (Z0 : concat (map (fun rd => rd v) (map (backward_round_by P shape recv send (m_add M)) (rev (seq 0 (length (p_shape P)))))) = []).
    { induction (rev (seq 0 (length (p_shape P)))) as [|i l IH]; cbn [map concat]; auto. rewrite IH. unfold backward_round_by. now rewrite Et. }
    rewrite Z0. cbn [load_round store_round map concat app acts_run h_hist set_t h_t]. now rewrite last_last.
  Qed.
End Given.

Lemma C76_proof : C76_statement.
Proof.
  intros R M world P L H shape recv send pre dy init eager g HG HN HPl Hc He. split.
  - intros idx v Hw. pose proof HG as (G1 & G2 & G3 & G4 & G5 & G6).
    assert (HS : tshape (halo_result g v) = padded_shape L H idx).
    { destruct (counted M dy P shape recv send world pre init eager g He) as (Rz & HR & HK). destruct (HR v) as [T1 _].
      destruct (HK None) as (g0 & He0 & E0). rewrite <- (T1 None), <- E0.
      rewrite (counting_shape world P L H shape recv send pre dy init eager HG HN HPl Hc None g0 v (G2 v (worker_at_In _ _ _ Hw)) He0).
      apply Forall_app in Hc as [_ Hc']. inv Hc'. auto. }
    split; [exact HS|]. split.
    + intros p q C Hp HC.
      assert (Hq : valid_index (padded_shape L H idx) q).
      { destruct Hp as [Hp ->]. apply bulk_point; auto. eapply (worker_length world P L H); eauto. }
      destruct (result_counts M world P L H shape recv send pre dy init eager g HG HN HPl Hc He idx v q Hw Hq) as (_ & K & _). eauto.
    + intros q Hq. apply (result_counts M world P L H shape recv send pre dy init eager g HG HN HPl Hc He idx v q Hw Hq).
  - intros v Hv Hn. eapply outside_result; eauto.
Qed.

Theorem C76_halo_gradients : C76_statement.
Proof. exact C76_proof. Qed.

(** The two programs post the same requests. *)
Section Safe.
  Context {R : CRing}.
  Variables (add : R -> R -> R) (P : part) (shape : Z -> list Z) (recv send : Z -> list (Z * Z)).
  Notation any := (fun _ _ => True).

  Lemma same_exchange pack unpack pack' unpack' a b c d :
    Forall2 (act_rel (S1 := @hst R) (M1 := tensor R) (S2 := @hst R) (M2 := tensor R) any any)
      (exchange pack unpack a b c d) (exchange pack' unpack' a b c d).
  Proof.
    unfold exchange, local_if, recv_link, send_link.
    constructor; [|constructor; [|constructor; [|constructor; [|constructor; [|constructor; [|constructor]]]]]].
    - constructor. auto.
    - constructor. auto.
    - destruct (k_on a); constructor; auto.
    - destruct (k_on b); constructor; auto.
    - destruct (k_on c); constructor; auto.
    - destruct (k_on d); constructor; auto.
  Qed.

  Lemma same_history cs :
    Forall2 (fun rd rd' => forall w, Forall2 (act_rel (S1 := @hst R) (M1 := tensor R) (S2 := @hst R) (M2 := tensor R) any any) (rd w) (rd' w))
      (history_rounds_by P shape recv send add cs) (history_rounds P shape recv send cs).
  Proof.
    unfold history_rounds_by, history_rounds. induction cs as [|c cs IH]; cbn [flat_map]; [constructor|]. apply Forall2_app; auto.
    destruct c as [x|x]; cbn [call_rounds_by call_rounds app];
      (constructor; [intros w; constructor; [constructor; auto|constructor]|]); apply Forall2_app;
      try (constructor; [intros w; constructor; [constructor; auto|constructor]|constructor]); apply F2_map; intros i w.
    - unfold forward_round. destruct (takes_part P w); [apply same_exchange|constructor].
    - unfold backward_round_by, backward_round. destruct (takes_part P w); [apply same_exchange|constructor].
  Qed.
End Safe.

Lemma act_flip {S1 M1 S2 M2} a b : act_rel (S1 := S1) (M1 := M1) (S2 := S2) (M2 := M2) (fun _ _ => True) (fun _ _ => True) a b ->
  act_rel (S1 := S2) (M1 := M2) (S2 := S1) (M2 := M1) (fun _ _ => True) (fun _ _ => True) b a.
Proof. intros []; constructor; auto. Qed.

Lemma F2_flip {A B} (r : A -> B -> Prop) (r' : B -> A -> Prop) l l' : (forall a b, r a b -> r' b a) -> Forall2 r l l' -> Forall2 r' l' l.
Proof. intros Hr F. induction F; constructor; auto. Qed.

Lemma g_flip {S1 M1 S2 M2} g g' : g_rel (S1 := S1) (M1 := M1) (S2 := S2) (M2 := M2) (fun _ _ => True) (fun _ _ => True) g g' ->
  g_rel (S1 := S2) (M1 := M2) (S2 := S1) (M2 := M1) (fun _ _ => True) (fun _ _ => True) g' g.
Proof.
  intros [A B C D]. constructor; auto.
  - intros w. destruct (A w) as [W1 W2 W3 W4 _]. constructor; auto. apply (F2_flip _ _ _ _ (fun a b (X : req_rel _ _ a b) =>
      match X in req_rel _ _ a b return req_rel _ _ b a with
      | rr_null _ _ => rr_null _ _
      | rr_recv _ _ s t n h h' _ => rr_recv _ _ s t n h' h (fun _ _ _ _ _ _ => I)
      | rr_send _ _ d t n => rr_send _ _ d t n
      end) W3).
  - intros s d t. apply (F2_flip _ _ _ _ (fun a b _ => I) (B s d t)).
Qed.

Lemma C76_safe_proof : C76_safe_statement.
Proof.
  intros R M world P L H shape recv send calls init eager HG HPl prog.
  set (ring := rounds_prog (history_rounds P shape recv send calls)).
  assert (HP : forall w, Forall2 (Forall2 (act_rel (fun _ _ => True) (fun _ _ => True))) (prog w) (ring w)).
  { intros w. unfold prog, ring, rounds_prog. pose proof (same_history (m_add M) P shape recv send calls) as F.
    revert F. generalize (history_rounds_by P shape recv send (m_add M) calls), (history_rounds P shape recv send calls).
    intros l l' F. induction F; cbn [map]; constructor; auto. }
  assert (HP' : forall w, Forall2 (Forall2 (act_rel (fun _ _ => True) (fun _ _ => True))) (ring w) (prog w)).
  { intros w. apply (F2_flip _ _ _ _ (fun a b X => F2_flip _ _ _ _ act_flip X) (HP w)). }
  pose proof (halo_async world P L H shape recv send HG HPl calls init) as A.
  split.
  - destruct (ao_bounded _ _ _ _ A eager) as [N HNn]. exists N. intros n g Hr.
    destruct (run_rel _ _ world prog ring HP init init (fun _ => I) eager n g Hr) as (g' & Hr' & _). eauto.
  - intros n g Hr Hd. destruct (run_rel _ _ world prog ring HP init init (fun _ => I) eager n g Hr) as (g' & Hr' & Hg).
    assert (Hd' : ~ done world ring g') by (intros D; apply Hd; exact (done_rel _ _ world ring prog HP' g' g (g_flip _ _ Hg) D)).
    destruct (ao_progress _ _ _ _ A eager n g' Hr' Hd') as [h' Hs'].
    destruct (step_rel _ _ world ring prog HP' eager g' g h' (g_flip _ _ Hg) Hs') as (h & Hs & _). eauto.
Qed.

Theorem C76_safe : C76_safe_statement.
Proof. exact C76_safe_proof. Qed.

Lemma C76_forward_proof : C76_forward_statement.
Proof.
  intros R M world P L H shape recv send G pre x init eager g HG HN HPl Hc HB He.
  destruct (forward_after (m_add M) world P L H shape recv send HG HPl pre x init eager g He) as (g' & He' & E).
  destruct (C25_halo_exchange_fills R world P L H shape recv send G pre x init eager g' HG HN HPl Hc HB He') as [A B]. split.
  - intros idx v Hv. destruct (A idx v Hv) as (A1 & A2 & _).
    destruct (E v) as [E1 E2]; [destruct HG as (_ & HG & _); apply HG; eapply worker_at_In; eauto|].
    split; [congruence|]. intros q Hq. destruct (A2 q Hq) as [A3 A4]. split; [exact A3|]. now rewrite E2.
  - intros v Hv Hn. destruct (E v Hv) as [E1 E2], (B v Hv Hn) as [B1 B2]. split; [congruence|]. intros i Hi. rewrite E2. apply B2. congruence.
Qed.

Theorem C76_forward : C76_forward_statement.
Proof. exact C76_forward_proof. Qed.

(** With the addition of the ring this is the exchange of C26. *)
Theorem C76_ring (R : CRing) P shape recv send (cs : list (@call R)) :
  history_rounds_by P shape recv send radd cs = history_rounds P shape recv send cs.
Proof. reflexivity. Qed.

(** The entries that stand for a point can be listed. *)
Definition all_copies (P : part) (L : layout) (H : halos) (g : list Z) : list (Z * list Z) :=
  flat_map (fun idx => map (pair (wk P idx)) (filter (fun q => zlist_eqb (stands_for L H idx q) g) (indices (padded_shape L H idx))))
    (range_index (p_shape P)).

Theorem C76_copies P L H g : part_ok P -> copies P L H g (all_copies P L H g).
Proof.
  intros HP. unfold all_copies. split.
  - apply NoDup_flat_map.
    + apply range_index_nodup.
    + intros idx _. apply FinFun.Injective_map_NoDup; [intros a b E; now injection E|]. apply NoDup_filter, indices_nodup.
    + intros i j x Hi Hj Hx Hy. apply in_map_iff in Hx as (a & <- & _). apply in_map_iff in Hy as (b & E & _).
      injection E as E _. apply in_range_index in Hi, Hj. pose proof (wk_worker P i HP Hi) as W1. pose proof (wk_worker P j HP Hj) as W2.
      rewrite E in W2. eapply worker_at_fun; eauto.
  - intros u q. rewrite in_flat_map. split.
    + intros (idx & Hi & Hx). apply in_map_iff in Hx as (a & E & Ha). injection E as <- <-. apply filter_In in Ha as [Ha Hg].
      apply in_range_index in Hi. exists idx. split; [now apply wk_worker|]. split; [now apply in_indices|]. now apply zlist_eqb_eq.
    + intros (idx & Hw & Hq & Hg). exists idx. split; [apply in_range_index; apply Hw|]. rewrite (worker_wk _ _ _ Hw).
      apply in_map. apply filter_In. split; [now apply in_indices|]. now apply zlist_eqb_eq.
Qed.

(** * Example

    The exchange of C26's example, the cotangents hundredfold, with the addition of
    C61's example, after a forward pass.  Workers move in the order of the world, and
    complete their requests in the order [prefs]. *)
Definition hr_dy (v : Z) : tensor Zring := @mkt Zring (hx_shape v) (fun q => 100 * tat (hx_dy v) q).
Definition hr_calls : list (@call Zring) := [HForward hx_x; HBackward hr_dy].
Definition hr_rounds := history_rounds_by hx_P hx_shape hx_recv hx_send (m_add ex61_M) hr_calls.
Definition hr_g : @gst (@hst Zring) (tensor Zring) := played hx_world hr_rounds hx_zero (fun _ _ _ _ => false) (fun _ => [1; 0; 3; 2]%nat) 500.

Example C76_example :
  halo_given hx_world hx_P hx_L hx_H /\ halos_narrow hx_L hx_H /\ planned hx_P hx_L hx_H hx_shape hx_recv hx_send /\
  Forall (call_ok hx_P hx_L hx_H) ([HForward hx_x] ++ [HBackward hr_dy]) /\
  ends hx_world hr_rounds hx_zero (fun _ _ _ _ => false) hr_g /\
  (* an entry of worker 13's block that all four workers hold *)
  in_bulk hx_L hx_H [1; 1] [0; 0] [2; 1] /\
  copies hx_P hx_L hx_H [3; 2] [(10, [3; 2]); (11, [3; 1]); (12, [2; 2]); (13, [2; 1])] /\
  map (fun e => tat (hr_dy (fst e)) (snd e)) [(10, [3; 2]); (11, [3; 1]); (12, [2; 2]); (13, [2; 1])] = [900; 1200; 1000; 1300] /\
  tat (hx_run [HBackward hr_dy] 13) [2; 1] = 4400 /\
  tat (halo_result hr_g 13) [2; 1] = 4384 /\
  (forall p, ~ in_bulk hx_L hx_H [1; 1] p [0; 0]) /\
  teq (halo_result hr_g 9) (hr_dy 9).
Proof.
  split; [exact hx_given|]. split; [exact hx_narrow|]. split; [exact hx_planned|].
  split; [repeat constructor; intros idx v Hv; destruct (hx_workers _ _ Hv) as [[-> ->]|[[-> ->]|[[-> ->]|[-> ->]]]]; reflexivity|].
  split; [apply played_ends; vm_compute; reflexivity|].
  split; [split; [repeat constructor; lia|reflexivity]|].
  split; [apply (C76_copies hx_P hx_L hx_H [3; 2]); apply hx_given|].
  split; [reflexivity|]. split; [vm_compute; reflexivity|]. split; [vm_compute; reflexivity|].
  split.
  - intros p [Hp E]. apply valid_index_length in Hp as Lp. cbn in Lp. destruct p as [|a [|b [|]]]; try discriminate Lp.
    vm_compute in E. inversion Hp as [|? ? ? ? Ha Hb]; subst. destruct a; try discriminate E; lia.
  - split; [vm_compute; reflexivity|]. intros i _. vm_compute. reflexivity.
Qed.

(** A forward pass after the backward pass. *)
Definition hr_again : @gst (@hst Zring) (tensor Zring) :=
  played hx_world (history_rounds_by hx_P hx_shape hx_recv hx_send (m_add ex61_M) ([HForward hx_x; HBackward hr_dy] ++ [HForward hx_x])) hx_zero
    (fun _ _ _ _ => false) (fun _ => [1; 0; 3; 2]%nat) 500.

Example C76_forward_example :
  Forall (call_ok hx_P hx_L hx_H) ([HForward hx_x; HBackward hr_dy] ++ [HForward hx_x]) /\
  (forall idx v p, worker_at hx_P idx v -> valid_index (block_shape hx_L idx) p ->
     tat (hx_x v) (vadd (left_halo hx_H idx) p) = tat hx_G (vadd (block_lo hx_L idx) p)) /\
  ends hx_world (history_rounds_by hx_P hx_shape hx_recv hx_send (m_add ex61_M) ([HForward hx_x; HBackward hr_dy] ++ [HForward hx_x])) hx_zero
    (fun _ _ _ _ => false) hr_again /\
  map (fun i => tat (halo_result hr_again 13) i) (indices (hx_shape 13)) = [11; 12; 13; 14; 21; 22; 23; 24; 31; 32; 33; 34; 41; 42; 43; 44].
Proof.
  split; [repeat constructor; intros idx v Hv; destruct (hx_workers _ _ Hv) as [[-> ->]|[[-> ->]|[[-> ->]|[-> ->]]]]; reflexivity|].
  split; [apply C25_example|].
  split; [apply played_ends; vm_compute; reflexivity|]. vm_compute; reflexivity.
Qed.

Print Assumptions C76_halo_gradients.
Print Assumptions C76_forward.
Print Assumptions C76_safe.
