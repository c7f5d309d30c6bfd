(** Constructing layers over distributed features. *)

From Coq Require Import String.
From Verif Require Import Prelude SpecIndex SpecPartition ModelSlicing ModelDecomposition ModelPartition ProofPartition ModelHaloMixin ProofHaloMixin
  ModelFeatureLayer ModelConstruct.

Notation length := List.length.

(** ** C88 *)

(** An argument is a number or one number per feature dimension; its value in
    dimension [j]. *)
Definition accepted (dims : nat) (a : list Z) : Prop := length a = 1%nat \/ length a = dims.
Definition value_in (a : list Z) (j : nat) : Z := match a with [x] => x | _ => nth j a 0 end.

Definition window_accepted (dims : nat) (w : window) : Prop :=
  accepted dims (w_kernel w) /\ accepted dims (w_stride w) /\ accepted dims (w_padding w) /\ accepted dims (w_dilation w).

(** The kept parameter [l] is argument [a] in every feature dimension. *)
Definition spread (dims : nat) (a l : list Z) : Prop :=
  length l = dims /\ forall j, (j < dims)%nat -> nth j l 0 = value_in a j.

Definition window_spread (dims : nat) (w e : window) : Prop :=
  spread dims (w_kernel w) (w_kernel e) /\ spread dims (w_stride w) (w_stride e) /\
  spread dims (w_padding w) (w_padding e) /\ spread dims (w_dilation w) (w_dilation e).

(** The padding worker [idx] adds before and after its block: all of the padding at
    the border of the global tensor, nothing between the workers, nothing in the
    dimensions in front of the feature dimensions. *)
Definition pads_border (P : part) (dims : nat) (a idx : list Z) (lp : list (Z * Z)) : Prop :=
  length lp = length (p_shape P) /\
  forall j, (j < length (p_shape P))%nat ->
    let before := fst (nth j lp (0, 0)) in
    let after := snd (nth j lp (0, 0)) in
    let front := (length (p_shape P) - dims)%nat in
    ((j < front)%nat -> before = 0 /\ after = 0) /\
    ((front <= j)%nat ->
      (nth j idx 0 = 0 -> before = value_in a (j - front)) /\ (nth j idx 0 <> 0 -> before = 0) /\
      (nth j idx 0 = nth j (p_shape P) 0 - 1 -> after = value_in a (j - front)) /\
      (nth j idx 0 <> nth j (p_shape P) 0 - 1 -> after = 0)).

Definition no_padding (dims : nat) (l : list Z) : Prop := length l = dims /\ Forall (fun a => a = 0) l.

(** What worker [v] does: whatever the arguments, a worker outside of the partition
    refuses only a foreign buffer manager; a worker of the partition refuses
    exactly what is not [fine], which does not depend on the worker. *)
Definition constructs (P : part) (m : manager) (fine : Prop) (good : list Z -> built -> Prop)
    (init : Z -> result (option built)) : Prop :=
  (m = OtherManager -> forall v, init v = Raise ErrValue) /\
  (m <> OtherManager ->
    (forall v, ~ In v (p_ranks P) -> init v = Ok None) /\
    (~ fine -> forall v, In v (p_ranks P) -> init v = Raise ErrValue) /\
    (fine -> forall v idx, worker_at P idx v -> exists b, init v = Ok (Some b) /\ good idx b)).

Definition C88_pool_statement : Prop :=
  forall (P : part) (avg : bool) (dims : nat) (m : manager) (w : window),
  part_ok P ->
  constructs P m
    (window_accepted dims w /\ (avg = true -> forall j, (j < dims)%nat -> value_in (w_dilation w) j = 1) /\
     (dims <= length (p_shape P))%nat)
    (fun idx b => window_spread dims w (b_window b) /\ no_padding dims (b_torch_padding b) /\
       exists lp, b_local_padding b = Some lp /\ pads_border P dims (w_padding w) idx lp)
    (pool_init P avg dims m w).

(** Convolutions: several workers do not look at the padding mode, a lone worker
    leaves padding to torch. *)
Definition known_mode (mode : string) : Prop :=
  mode = "zeros"%string \/ mode = "reflect"%string \/ mode = "replicate"%string \/ mode = "circular"%string.

Definition C88_convolution_statement : Prop :=
  forall (P : part) (dims : nat) (m : manager) (w : window) (cin cout groups : Z) (mode : string),
  part_ok P -> 0 < groups ->
  let lone := length (p_ranks P) = 1%nat in
  constructs P m
    (window_accepted dims w /\ (groups | cin) /\ (groups | cout) /\
     (lone -> known_mode mode) /\ (~ lone -> (dims <= length (p_shape P))%nat))
    (fun idx b => window_spread dims w (b_window b) /\
       (lone -> spread dims (w_padding w) (b_torch_padding b) /\ b_local_padding b = None) /\
       (~ lone -> no_padding dims (b_torch_padding b) /\
          exists lp, b_local_padding b = Some lp /\ pads_border P dims (w_padding w) idx lp))
    (conv_feature_init P dims m w cin cout groups mode).

(** Upsampling: all workers alike. *)
Definition C88_upsampling_statement : Prop :=
  forall (P : part) (m : manager) (sized scaled : bool) (mode : string) (v : Z),
  (mode = "cubic"%string -> upsample_init P m sized scaled mode v = UpNotImplemented) /\
  (mode <> "cubic"%string ->
    ((sized = scaled \/ m = OtherManager) -> upsample_init P m sized scaled mode v = UpValueError) /\
    (sized <> scaled -> m <> OtherManager ->
      (In v (p_ranks P) -> upsample_init P m sized scaled mode v = UpMade true) /\
      (~ In v (p_ranks P) -> upsample_init P m sized scaled mode v = UpMade false))).

(** *** Proofs *)

Lemma expand_ok dims a : accepted dims a -> exists l, expand_parameter dims a = Ok l /\ spread dims a l.
Proof.
  intros H. unfold expand_parameter. destruct a as [|x [|y a]].
  - destruct H as [H|H]; [discriminate|]. cbn [length] in *. subst dims. exists []. split; [reflexivity|].
    split; [reflexivity|]. intros j Hj. lia.
  - exists (repeat x dims). split; [reflexivity|]. split; [apply repeat_length|].
    intros j Hj. cbn [value_in]. clear H. revert j Hj. induction dims as [|n IH]; intros j Hj; [lia|].
    destruct j; cbn [repeat nth]; [reflexivity|]. apply IH. lia.
  - destruct H as [H|H]; [cbn [length] in H; discriminate|]. exists (x :: y :: a). rewrite (proj2 (Nat.eqb_eq _ _) H).
    split; [reflexivity|]. split; [exact H|]. intros j Hj. reflexivity.
Qed.

Lemma expand_bad dims a : ~ accepted dims a -> expand_parameter dims a = Raise ErrValue.
Proof.
  intros H. unfold expand_parameter. destruct a as [|x [|y a]].
  - destruct (Nat.eqb_spec (length (@nil Z)) dims) as [E|E]; [|reflexivity]. exfalso. apply H. right. exact E.
  - exfalso. apply H. left. reflexivity.
  - destruct (Nat.eqb_spec (length (x :: y :: a)) dims) as [E|E]; [|reflexivity]. exfalso. apply H. right. exact E.
Qed.

Lemma accepted_dec dims a : accepted dims a \/ ~ accepted dims a.
Proof. unfold accepted. lia. Qed.

Lemma expand_window_good dims w : window_accepted dims w ->
  exists e, expand_window_parameters dims w = Ok e /\ window_spread dims w e.
Proof.
  intros (H1 & H2 & H3 & H4). unfold expand_window_parameters.
  destruct (expand_ok _ _ H1) as (k & E1 & S1). destruct (expand_ok _ _ H2) as (s & E2 & S2).
  destruct (expand_ok _ _ H3) as (p & E3 & S3). destruct (expand_ok _ _ H4) as (d & E4 & S4).
  rewrite E1, E2, E3, E4. cbn [rbind]. eexists. split; [reflexivity|]. repeat split; cbn [w_kernel w_stride w_padding w_dilation];
    first [apply S1 | apply S2 | apply S3 | apply S4].
Qed.

Lemma window_dec dims w : window_accepted dims w \/ expand_window_parameters dims w = Raise ErrValue.
Proof.
  unfold expand_window_parameters, window_accepted.
  destruct (accepted_dec dims (w_kernel w)) as [H1|H1]; [|right; now rewrite (expand_bad _ _ H1)].
  destruct (expand_ok _ _ H1) as (k & E1 & _). rewrite E1. cbn [rbind].
  destruct (accepted_dec dims (w_stride w)) as [H2|H2]; [|right; now rewrite (expand_bad _ _ H2)].
  destruct (expand_ok _ _ H2) as (s & E2 & _). rewrite E2. cbn [rbind].
  destruct (accepted_dec dims (w_padding w)) as [H3|H3]; [|right; now rewrite (expand_bad _ _ H3)].
  destruct (expand_ok _ _ H3) as (p & E3 & _). rewrite E3. cbn [rbind].
  destruct (accepted_dec dims (w_dilation w)) as [H4|H4]; [|right; now rewrite (expand_bad _ _ H4)].
  left. auto.
Qed.

Lemma nth_front n l j : (j < n)%nat -> nth j (repeat 0 n ++ l) 0 = 0.
Proof. intros H. rewrite app_nth1 by (rewrite repeat_length; exact H). apply nth_repeat. Qed.

Lemma nth_back n l j : (n <= j)%nat -> nth j (repeat 0 n ++ l) 0 = nth (j - n) l 0.
Proof. intros H. rewrite app_nth2 by (rewrite repeat_length; exact H). now rewrite repeat_length. Qed.

Lemma local_padding_good P dims a l idx : spread dims a l -> (dims <= length (p_shape P))%nat ->
  exists lp, local_padding_of P idx l = Ok lp /\ pads_border P dims a idx lp.
Proof.
  intros (Hl & Hv) Hd. unfold local_padding_of, np_pad_left. rewrite Hl.
  destruct (Nat.ltb_spec (length (p_shape P)) dims) as [C|_]; [lia|]. cbn [rbind]. eexists. split; [reflexivity|].
  unfold compute_local_padding. split; [apply vec_length|]. intros j Hj. rewrite vec_nth by exact Hj. cbn [fst snd].
  split.
  - intros Hf. rewrite nth_front by exact Hf. now destruct (_ =? _), (_ =? _).
  - intros Hf. rewrite nth_back by exact Hf. rewrite Hv by lia.
    destruct (Z.eqb_spec (nth j idx 0) 0), (Z.eqb_spec (nth j idx 0) (nth j (p_shape P) 0 - 1)); repeat split; intros; congruence.
Qed.

Lemma local_padding_bad P dims a l idx : spread dims a l -> ~ (dims <= length (p_shape P))%nat ->
  local_padding_of P idx l = Raise ErrValue.
Proof.
  intros (Hl & _) Hd. unfold local_padding_of, np_pad_left. rewrite Hl.
  destruct (Nat.ltb_spec (length (p_shape P)) dims) as [C|C]; [reflexivity|lia].
Qed.

Lemma all_one dims a l : spread dims a l ->
  forallb (fun x => x =? 1) l = true <-> (forall j, (j < dims)%nat -> value_in a j = 1).
Proof.
  intros (Hl & Hv). rewrite forallb_forall. split.
  - intros H j Hj. rewrite <- Hv by exact Hj. apply Z.eqb_eq, H, nth_In. lia.
  - intros H x Hx. apply Z.eqb_eq. destruct (In_nth _ _ 0 Hx) as (j & Hj & <-). rewrite Hv by lia. apply H. lia.
Qed.

Lemma zeros_no_padding dims : no_padding dims (repeat 0 dims).
Proof. split; [apply repeat_length|]. apply Forall_forall. intros a Ha. now apply repeat_spec in Ha. Qed.

Lemma index_active P v : part_ok P -> In v (p_ranks P) -> exists idx, index_in P v = Some idx.
Proof.
  intros HP Hv. destruct (index_in P v) as [idx|] eqn:E; [now exists idx|]. apply index_in_none in E. contradiction.
Qed.

Lemma constructs_intro P m fine good init body :
  part_ok P ->
  (forall v, init v = let* _ := check_manager m in match index_in P v with None => Ok None | Some idx => body idx end) ->
  (~ fine -> forall idx, body idx = Raise ErrValue) ->
  (fine -> forall idx, exists b, body idx = Ok (Some b) /\ good idx b) ->
  constructs P m fine good init.
Proof.
  intros HP Hi Hbad Hgood. split.
  - intros -> v. rewrite Hi. reflexivity.
  - intros Hm. assert (Hi' : forall v, init v = match index_in P v with None => Ok None | Some idx => body idx end).
    { intros v. rewrite Hi. destruct m; [reflexivity..|contradiction]. }
    split; [|split].
    + intros v Hv. rewrite Hi'. apply index_in_none in Hv. now rewrite Hv.
    + intros Hf v Hv. rewrite Hi'. destruct (index_active _ _ HP Hv) as (idx & ->). now apply Hbad.
    + intros Hf v idx Hw. rewrite Hi'. apply (index_in_spec _ _ _ HP) in Hw. rewrite Hw. now apply Hgood.
Qed.

Lemma C88_pool_proof : C88_pool_statement.
Proof.
  intros P avg dims m w HP. eapply constructs_intro; [exact HP|intros v; reflexivity| |].
  - intros Hf idx. cbv beta.
    destruct (window_dec dims w) as [Hw| ->]; [|reflexivity].
    destruct (expand_window_good _ _ Hw) as (e & -> & S1 & S2 & S3 & S4). cbn [rbind].
    destruct (avg && negb (forallb (fun x => x =? 1) (w_dilation e))) eqn:E; [reflexivity|].
    destruct (le_dec dims (length (p_shape P))) as [Hd|Hd]; [|now rewrite (local_padding_bad _ _ _ _ _ S3 Hd)].
    exfalso. apply Hf. split; [exact Hw|]. split; [|exact Hd]. intros ->. cbn [andb] in E. apply Bool.negb_false_iff in E.
    now apply (all_one _ _ _ S4).
  - intros (Hw & Ha & Hd) idx. cbv beta.
    destruct (expand_window_good _ _ Hw) as (e & -> & S1 & S2 & S3 & S4). cbn [rbind].
    replace (avg && negb (forallb (fun x => x =? 1) (w_dilation e))) with false.
    2: { destruct avg; [|reflexivity]. now rewrite (proj2 (all_one _ _ _ S4) (Ha eq_refl)). }
    destruct (local_padding_good P dims _ _ idx S3 Hd) as (lp & -> & Hlp). cbn [rbind].
    eexists. split; [reflexivity|]. cbn [b_window b_torch_padding b_local_padding].
    split; [now repeat split; apply S1 || apply S2 || apply S3 || apply S4|]. split; [apply zeros_no_padding|]. now exists lp.
Qed.

Lemma mode_check mode :
  existsb (String.eqb mode) ["zeros"; "reflect"; "replicate"; "circular"]%string = true <-> known_mode mode.
Proof.
  unfold known_mode. cbn [existsb]. rewrite !Bool.orb_true_iff, !String.eqb_eq. intuition discriminate.
Qed.

Lemma mod_divide a b : 0 < b -> (a mod b =? 0) = true <-> (b | a).
Proof. intros H. rewrite Z.eqb_eq. apply Z.mod_divide. lia. Qed.

Lemma torch_conv_good cin cout groups mode : 0 < groups -> (groups | cin) -> (groups | cout) -> known_mode mode ->
  torch_conv_init cin cout groups mode = Ok tt.
Proof.
  intros Hg H1 H2 H3. unfold torch_conv_init.
  now rewrite (proj2 (mod_divide _ _ Hg) H1), (proj2 (mod_divide _ _ Hg) H2), (proj2 (mode_check _) H3).
Qed.

Lemma torch_conv_dec cin cout groups mode : 0 < groups ->
  ((groups | cin) /\ (groups | cout) /\ known_mode mode) \/ torch_conv_init cin cout groups mode = Raise ErrValue.
Proof.
  intros Hg. unfold torch_conv_init.
  destruct (cin mod groups =? 0) eqn:E1; [|now right]. destruct (cout mod groups =? 0) eqn:E2; [|now right]. cbn [negb].
  destruct (existsb _ _) eqn:E3; [|now right]. left.
  split; [|split]; [now apply mod_divide in E1|now apply mod_divide in E2|now apply mode_check].
Qed.

Lemma C88_convolution_proof : C88_convolution_statement.
Proof.
  intros P dims m w cin cout groups mode HP Hg lone. eapply constructs_intro; [exact HP|intros v; reflexivity| |].
  - intros Hf idx. cbv beta.
    destruct (window_dec dims w) as [Hw| ->]; [|reflexivity].
    destruct (expand_window_good _ _ Hw) as (e & -> & S1 & S2 & S3 & S4). cbn [rbind].
    destruct (Nat.eqb_spec (length (p_ranks P)) 1) as [E|E].
    + destruct (torch_conv_dec cin cout groups mode Hg) as [(H1 & H2 & H3)| ->]; [|reflexivity].
      exfalso. apply Hf. split; [exact Hw|]. split; [exact H1|]. split; [exact H2|]. split; [auto|]. intros C. contradiction.
    + destruct (torch_conv_dec cin cout groups "zeros" Hg) as [(H1 & H2 & _)| ->]; [|reflexivity].
      rewrite torch_conv_good; [|exact Hg|exact H1|exact H2|now left]. cbn [rbind].
      destruct (le_dec dims (length (p_shape P))) as [Hd|Hd]; [|now rewrite (local_padding_bad _ _ _ _ _ S3 Hd)].
      exfalso. apply Hf. split; [exact Hw|]. split; [exact H1|]. split; [exact H2|]. split; [|auto]. intros C. contradiction.
  - intros (Hw & H1 & H2 & Hmode & Hd) idx. cbv beta.
    destruct (expand_window_good _ _ Hw) as (e & -> & S1 & S2 & S3 & S4). cbn [rbind].
    destruct (Nat.eqb_spec (length (p_ranks P)) 1) as [E|E].
    + rewrite torch_conv_good; [|exact Hg|exact H1|exact H2|exact (Hmode E)]. cbn [rbind].
      eexists. split; [reflexivity|]. cbn [b_window b_torch_padding b_local_padding].
      split; [now repeat split; apply S1 || apply S2 || apply S3 || apply S4|]. split; [auto|]. intros C. contradiction.
    + rewrite torch_conv_good; [|exact Hg|exact H1|exact H2|now left]. cbn [rbind].
      destruct (local_padding_good P dims _ _ idx S3 (Hd E)) as (lp & -> & Hlp). cbn [rbind].
      eexists. split; [reflexivity|]. cbn [b_window b_torch_padding b_local_padding].
      split; [now repeat split; apply S1 || apply S2 || apply S3 || apply S4|]. split; [intros C; contradiction|].
      intros _. split; [apply zeros_no_padding|]. now exists lp.
Qed.

Lemma C88_upsampling_proof : C88_upsampling_statement.
Proof.
  intros P m sized scaled mode v. unfold upsample_init. split.
  - intros ->. reflexivity.
  - intros Hm. rewrite (proj2 (String.eqb_neq _ _) Hm). split.
    + intros [->| ->]; [destruct scaled; reflexivity|destruct sized, scaled; reflexivity].
    + intros Hs Hb. assert (A : match check_manager m with Ok _ => UpMade (is_active (p_ranks P) v) | Raise _ => UpValueError end
        = UpMade (is_active (p_ranks P) v)) by (destruct m; [reflexivity..|contradiction]).
      rewrite A. clear A. assert (B : is_active (p_ranks P) v = true <-> In v (p_ranks P)) by apply is_active_spec.
      split; intros Hv.
      * rewrite (proj2 B Hv). destruct sized, scaled; (contradiction || reflexivity).
      * destruct (is_active (p_ranks P) v); [exfalso; apply Hv, B; reflexivity|]. destruct sized, scaled; (contradiction || reflexivity).
Qed.

(** Pooling layers: all workers of the partition accept the arguments or all raise,
    and what they keep is the sequential layer's window with the padding at the
    border of the global tensor. *)
Theorem C88_pool : C88_pool_statement.
Proof. exact C88_pool_proof. Qed.

Theorem C88_convolution : C88_convolution_statement.
Proof. exact C88_convolution_proof. Qed.

Theorem C88_upsampling : C88_upsampling_statement.
Proof. exact C88_upsampling_proof. Qed.

(** A mode no layer knows is refused by a lone worker only. *)
Definition cs_one : part := mkpart 0 [4] [1; 1; 1].
Definition cs_two : part := mkpart 0 [4; 2] [1; 1; 2].
Definition cs_w : window := mkwindow [3] [2] [1] [1].

Theorem C88_unknown_mode :
  exists (mode : string), ~ known_mode mode /\
    conv_feature_init cs_one 1 NoManager cs_w 2 2 1 mode 4 = Raise ErrValue /\
    (forall v, In v (p_ranks cs_two) -> exists b, conv_feature_init cs_two 1 NoManager cs_w 2 2 1 mode v = Ok (Some b)).
Proof.
  exists "zero"%string. split; [intros [H|[H|[H|H]]]; discriminate|]. split; [reflexivity|].
  intros v [<-|[<-|[]]]; eexists; reflexivity.
Qed.

(** A grid of 1 x 1 x 2 x 2 workers pools with a number for the kernel and a tuple for the
    padding; worker 7 is not in the partition. *)
Definition cs_P : part := mkpart 0 [3; 0; 5; 1] [1; 1; 2; 2].
Example C88_example :
  part_ok cs_P /\
  map (pool_init cs_P true 2 NoManager (mkwindow [3] [2] [1; 0] [1])) [3; 1; 7] =
    [Ok (Some (mkbuilt (mkwindow [3; 3] [2; 2] [1; 0] [1; 1]) [0; 0] (Some [(0, 0); (0, 0); (1, 0); (0, 0)])));
     Ok (Some (mkbuilt (mkwindow [3; 3] [2; 2] [1; 0] [1; 1]) [0; 0] (Some [(0, 0); (0, 0); (0, 1); (0, 0)])));
     Ok None] /\
  map (pool_init cs_P true 2 NoManager (mkwindow [3] [2] [1] [2])) [3; 1; 7] = [Raise ErrValue; Raise ErrValue; Ok None] /\
  map (pool_init cs_P false 2 NoManager (mkwindow [3; 3; 3] [2] [1] [2])) [3; 7] = [Raise ErrValue; Ok None] /\
  map (conv_feature_init cs_P 2 BackendManager (mkwindow [3] [1] [2] [1]) 4 6 2 "zeros"%string) [0; 7] =
    [Ok (Some (mkbuilt (mkwindow [3; 3] [1; 1] [2; 2] [1; 1]) [0; 0] (Some [(0, 0); (0, 0); (2, 0); (0, 2)]))); Ok None] /\
  conv_feature_init cs_P 2 BackendManager (mkwindow [3] [1] [2] [1]) 4 6 4 "zeros"%string 0 = Raise ErrValue /\
  map (upsample_init cs_P NoManager true false "linear"%string) [0; 7] = [UpMade true; UpMade false].
Proof.
  split; [|repeat split; reflexivity].
  split; [repeat constructor; cbn; intuition discriminate|]. split; [discriminate|].
  split; [repeat constructor|reflexivity].
Qed.

Print Assumptions C88_pool.
Print Assumptions C88_convolution.
Print Assumptions C88_upsampling.
Print Assumptions C88_unknown_mode.
