(** C41 (element type codes), C42 (padding conversion), C43 (zero-volume
    correction), C44 (convolution front end). *)

From Verif Require Import Prelude SpecIndex Ring Tensor ModelUtilities.

(** * Dictionaries *)

Section DictFacts.
  Context {K V : Type} (eqb : K -> K -> bool).
  Hypothesis eqb_ok : forall a b, eqb a b = true <-> a = b.

  Lemma eqb_same a : eqb a a = true.
  Proof. now apply eqb_ok. Qed.
  Lemma eqb_other a b : a <> b -> eqb a b = false.
  Proof. intros H. destruct (eqb a b) eqn:E; auto. now apply eqb_ok in E. Qed.

  Lemma get_set_same (d : list (K * V)) k v : dict_get eqb (dict_set eqb d k v) k = Some v.
  Proof.
    induction d as [|[k' v'] d IH]; cbn [dict_set dict_get].
    - now rewrite eqb_same.
    - destruct (eqb k k') eqn:E; cbn [dict_get]; rewrite E; auto.
  Qed.

  Lemma get_set_other (d : list (K * V)) k k' v : k <> k' ->
    dict_get eqb (dict_set eqb d k' v) k = dict_get eqb d k.
  Proof.
    intros Hne. induction d as [|[k2 v2] d IH]; cbn [dict_set dict_get].
    - now rewrite eqb_other.
    - destruct (eqb k' k2) eqn:E; cbn [dict_get].
      + apply eqb_ok in E. subst. now rewrite (eqb_other k k2 Hne).
      + destruct (eqb k k2); auto.
  Qed.

  (** A value that every entry of its key agrees on is the one found. *)
  Lemma dict_of_get (l : list (K * V)) k v :
    In (k, v) l -> (forall v', In (k, v') l -> v' = v) -> dict_get eqb (dict_of eqb l) k = Some v.
  Proof.
    unfold dict_of.
    assert (G : forall l d, (forall v', In (k, v') l -> v' = v) ->
              (In (k, v) l \/ dict_get eqb d k = Some v) ->
              dict_get eqb (fold_left (fun d kv => dict_set eqb d (fst kv) (snd kv)) l d) k = Some v).
    { clear l. induction l as [|[k1 v1] l IH]; intros d Hv Hin; cbn [fold_left fst snd].
      - destruct Hin as [[]|]; auto.
      - apply IH.
        + intros; apply Hv; simpl; auto.
        + destruct (eqb k k1) eqn:E.
          * apply eqb_ok in E. subst k1. right.
            rewrite get_set_same. f_equal. apply Hv. simpl; auto.
          * assert (Hne : k <> k1) by (intros ->; rewrite eqb_same in E; discriminate).
            rewrite get_set_other by auto.
            destruct Hin as [[X|X]|X]; auto. congruence. }
    intros. apply G; auto.
  Qed.

  Lemma dict_of_none (l : list (K * V)) k : (forall v, ~ In (k, v) l) -> dict_get eqb (dict_of eqb l) k = None.
  Proof.
    unfold dict_of.
    assert (G : forall (l d : list (K * V)), (forall v, ~ In (k, v) l) -> dict_get eqb d k = None ->
              dict_get eqb (fold_left (fun d kv => dict_set eqb d (fst kv) (snd kv)) l d) k = None).
    { clear l. induction l as [|[k1 v1] l IH]; intros d Hv Hn; cbn [fold_left fst snd]; auto.
      apply IH.
      - intros v Hin. apply (Hv v). simpl; auto.
      - rewrite get_set_other; auto. intros ->. apply (Hv v1). simpl; auto. }
    intros. apply G; auto.
  Qed.
End DictFacts.

Lemma npkey_eqb_ok a b : npkey_eqb a b = true <-> a = b.
Proof. unfold npkey_eqb. destruct (npkey_eq_dec a b); split; congruence. Qed.
Lemma torchty_eqb_ok a b : torchty_eqb a b = true <-> a = b.
Proof. unfold torchty_eqb. destruct (torchty_eq_dec a b); split; congruence. Qed.

(** * C41 *)

(** A torch type's code as sent, and a received code's type; the corresponding
    conversions between the libraries. *)
Definition C41_statement : Prop := forall num : elt -> Z,
  (forall a b, num a = num b -> a = b) ->
  let encode := dict_get torchty_eqb (torch_to_code num) in
  let decode := dict_get Z.eqb (code_to_torch num) in
  let np_encode := dict_get npkey_eqb (numpy_to_code num) in
  let np_decode := dict_get Z.eqb (code_to_numpy num) in
  let to_np := dict_get torchty_eqb torch_to_numpy in
  let to_torch := dict_get npkey_eqb numpy_to_torch in
  forall e,
    (* torch types: the code is NumPy's number and is decoded to the same type *)
    encode (TorchTy e) = Some (num e) /\ decode (num e) = Some (TorchTy e) /\
    (* NumPy types, given as dtype or as class: same code; decoded to the class *)
    np_encode (NpDtype e) = Some (num e) /\ np_encode (NpClass e) = Some (num e) /\
    np_decode (num e) = Some (NpClass e) /\
    (* between the libraries *)
    to_np (TorchTy e) = Some (NpClass e) /\
    to_torch (NpDtype e) = Some (TorchTy e) /\ to_torch (NpClass e) = Some (TorchTy e) /\
    (* distinct types, distinct codes; other types and codes are refused *)
    (forall e', encode (TorchTy e') = encode (TorchTy e) -> e' = e) /\
    (forall n, encode (TorchOther n) = None /\ to_np (TorchOther n) = None) /\
    (forall c, (forall e', c <> num e') -> decode c = None /\ np_decode c = None).

Lemma table_all e : In e table_order.
Proof. destruct e; simpl; tauto. Qed.

Lemma numpy_to_torch_list :
  numpy_to_torch = map (fun e => (NpDtype e, TorchTy e)) table_order ++
                   map (fun e => (NpClass e, TorchTy e)) table_order.
Proof. reflexivity. Qed.

Lemma numpy_to_code_list num :
  numpy_to_code num = map (fun e => (NpDtype e, num e)) table_order ++
                      map (fun e => (NpClass e, num e)) table_order.
Proof. reflexivity. Qed.

Lemma torch_to_code_list num :
  torch_to_code num = map (fun e => (TorchTy e, num e)) table_order.
Proof. reflexivity. Qed.

Lemma code_to_torch_get num e : (forall a b, num a = num b -> a = b) ->
  dict_get Z.eqb (code_to_torch num) (num e) = Some (TorchTy e).
Proof.
  intros Hinj. unfold code_to_torch. rewrite torch_to_code_list, map_map. cbn [fst snd].
  apply (dict_of_get Z.eqb Z.eqb_eq).
  - apply in_map_iff. exists e. split; auto. apply table_all.
  - intros v' Hv. apply in_map_iff in Hv. destruct Hv as (e' & E & _). injection E as E <-.
    apply Hinj in E. now subst.
Qed.

Lemma code_to_numpy_get num e : (forall a b, num a = num b -> a = b) ->
  dict_get Z.eqb (code_to_numpy num) (num e) = Some (NpClass e).
Proof.
  intros Hinj. unfold code_to_numpy. rewrite numpy_to_code_list, map_app, !map_map. cbn [fst snd].
  unfold dict_of. rewrite fold_left_app. fold (dict_of (V := npkey) Z.eqb).
  set (d := fold_left _ _ []). clearbody d.
  assert (G : forall l d, (In e l \/ dict_get Z.eqb d (num e) = Some (NpClass e)) ->
     dict_get Z.eqb (fold_left (fun d kv => dict_set Z.eqb d (fst kv) (snd kv))
       (map (fun x => (num x, NpClass x)) l) d) (num e) = Some (NpClass e)).
  { clear d. induction l as [|x l IH]; intros d H; cbn [map fold_left fst snd].
    - destruct H as [[]|]; auto.
    - apply IH. destruct (elt_eq_dec x e) as [->|Hne].
      + right. apply (get_set_same Z.eqb Z.eqb_eq).
      + destruct H as [[X|X]|X]; [congruence|auto|right].
        rewrite (get_set_other Z.eqb Z.eqb_eq); auto. }
  apply G. left. apply table_all.
Qed.

Lemma C41_proof : C41_statement.
Proof.
  intros num Hinj. cbv zeta. intros e. repeat split.
  - destruct e; reflexivity.
  - now apply code_to_torch_get.
  - destruct e; reflexivity.
  - destruct e; reflexivity.
  - now apply code_to_numpy_get.
  - destruct e; reflexivity.
  - destruct e; reflexivity.
  - destruct e; reflexivity.
  - intros e' H. apply Hinj.
    assert (E : forall x, dict_get torchty_eqb (torch_to_code num) (TorchTy x) = Some (num x))
      by (intros []; reflexivity).
    rewrite !E in H. now injection H.
  - unfold code_to_torch. rewrite torch_to_code_list, map_map. cbn [fst snd].
    apply (dict_of_none Z.eqb Z.eqb_eq). intros v Hv. apply in_map_iff in Hv.
    destruct Hv as (x & E & _). injection E as E _. symmetry in E. now apply (H x).
  - unfold code_to_numpy. rewrite numpy_to_code_list, map_app, !map_map. cbn [fst snd].
    apply (dict_of_none Z.eqb Z.eqb_eq). intros v Hv. apply in_app_or in Hv.
    destruct Hv as [Hv|Hv]; apply in_map_iff in Hv;
    destruct Hv as (x & E & _); injection E as E _; symmetry in E; now apply (H x).
Qed.

Theorem C41_type_codes : C41_statement.
Proof. exact C41_proof. Qed.

(** NumPy's numbers on Linux. *)
Definition linux_num (e : elt) : Z :=
  match e with
  | EBool => 0 | EInt8 => 1 | EUint8 => 2 | EInt16 => 3 | EInt32 => 5 | EInt64 => 7
  | EFloat16 => 23 | EFloat32 => 11 | EFloat64 => 12 | EComplex64 => 14 | EComplex128 => 15
  end.

Example C41_example :
  (forall a b, linux_num a = linux_num b -> a = b) /\
  dict_get Z.eqb (code_to_torch linux_num) 12 = Some (TorchTy EFloat64) /\
  dict_get Z.eqb (code_to_torch linux_num) 13 = None.
Proof. split; [|split; reflexivity]. intros [] []; simpl; congruence. Qed.

(** * C42 *)

(** The intended result: dimension [i] gets [l_i] entries before and [r_i]
    after; an entry of the result is the entry of [t] at the shifted index, or
    [value] outside. *)
Section PadSpec.
  Context {R : CRing}.

  Definition padded (value : R) (pad : list (Z * Z)) (t : tensor R) : tensor R :=
    mkt (map2 (fun n p => n + fst p + snd p) (tshape t) pad)
        (fun i => let j := map2 (fun k p => k - fst p) i pad in
                  if forallb (fun b => b) (map2 (fun k n => (0 <=? k) && (k <? n)) j (tshape t))
                  then tat t j else value).
End PadSpec.

Definition C42_statement : Prop := forall (R : CRing) (value : R) (pad : list (Z * Z)) (t : tensor R),
  length pad = length (tshape t) ->
  exists t', f_pad value (distdl_padding_to_torch_padding pad) (length (tshape t)) t = Some t' /\
    tshape t' = map2 (fun n p => n + fst p + snd p) (tshape t) pad /\
    (forall i, length i = length pad ->
       tat t' i = tat (padded value pad t) i).

Section PadProof.
  Context {R : CRing}.
  Variable value : R.

  Lemma upd_app_mid {A} (a b : list A) x y : upd (length a) y (a ++ x :: b) = a ++ y :: b.
  Proof. induction a; simpl; auto. now rewrite IHa. Qed.

  Lemma nth_app_mid {A} (a b : list A) x d : nth (length a) (a ++ x :: b) d = x.
  Proof. induction a; simpl; auto. Qed.

  Lemma firstn_skipn_mid {A} (a : list A) n : forall l,
    firstn (S (length a)) l = a ++ [n] -> skipn (length a) l = n :: skipn (S (length a)) l.
  Proof.
    induction a as [|x a IH]; intros [|y l] H; cbn [length] in *; try discriminate.
    - simpl in H. injection H as ->. reflexivity.
    - cbn [firstn app] in H. injection H as -> H. cbn [skipn]. apply IH. exact H.
  Qed.

  (** The dimensions of [shp] are still to be padded, those of [post] are done. *)
  Lemma f_pad_pads : forall (pad : list (Z * Z)) (done : list (Z * Z)) (shp post : list Z) (t t0 : tensor R),
    tshape t = shp ++ post -> length shp = length pad -> length post = length done ->
    post = map2 (fun n p => n + fst p + snd p) (skipn (length shp) (tshape t0)) done ->
    firstn (length shp) (tshape t0) = shp ->
    length (tshape t0) = (length shp + length post)%nat ->
    (forall i j, length i = length shp -> length j = length post ->
      tat t (i ++ j) =
      if forallb (fun b => b) (map2 (fun k n => (0 <=? k) && (k <? n))
                                 (map2 (fun k p => k - fst p) j done) (skipn (length shp) (tshape t0)))
      then tat t0 (i ++ map2 (fun k p => k - fst p) j done) else value) ->
    exists t', f_pad value (distdl_padding_to_torch_padding pad) (length shp) t = Some t' /\
      tshape t' = map2 (fun n p => n + fst p + snd p) (tshape t0) (pad ++ done) /\
      (forall i, length i = length (tshape t0) -> tat t' i = tat (padded value (pad ++ done) t0) i).
  Proof.
    induction pad as [|[l r] pad IH] using rev_ind; intros done shp post t t0 Ht Hs Hp Epost Hfst Hlen Hval.
    - destruct shp; [|discriminate]. cbn [length skipn firstn app] in *.
      exists t. split; [reflexivity|]. split.
      + now rewrite Ht, Epost.
      + intros i Hi. change i with ([] ++ i) at 1. rewrite Hval by (simpl; lia). reflexivity.
    - rewrite app_length in Hs. cbn [length] in Hs.
      destruct shp as [|n shp _] using rev_ind; [cbn [length] in Hs; lia|].
      rewrite app_length in *. cbn [length] in *.
      unfold distdl_padding_to_torch_padding. rewrite rev_app_distr.
      cbn [rev app flat_map fst snd].
      fold (distdl_padding_to_torch_padding pad).
      replace (length shp + 1)%nat with (S (length shp)) in * by lia.
      cbn [f_pad].
      destruct (IH ((l, r) :: done) shp ((n + l + r) :: post) (pad_dim value (length shp) l r t) t0)
        as (t' & E1 & E2 & E3).
      + unfold pad_dim; cbn [tshape]. rewrite Ht, <- app_assoc. cbn [app].
        now rewrite nth_app_mid, upd_app_mid.
      + lia.
      + cbn [length]. lia.
      + assert (Hsk : skipn (length shp) (tshape t0) = n :: skipn (S (length shp)) (tshape t0)).
        { now apply firstn_skipn_mid. }
        rewrite Hsk. cbn [map2 fst snd]. now rewrite Epost.
      + replace (length shp) with (Init.Nat.min (length shp) (S (length shp))) at 1 by lia.
        rewrite <- firstn_firstn, Hfst, firstn_app, Nat.sub_diag, firstn_all. simpl. now rewrite app_nil_r.
      + cbn [length]. lia.
      + intros i j Hi Hj.
        assert (Hsk : skipn (length shp) (tshape t0) = n :: skipn (S (length shp)) (tshape t0)).
        { now apply firstn_skipn_mid. }
        destruct j as [|k j]; [discriminate|]. cbn [length] in Hj.
        unfold pad_dim; cbn [tat]. rewrite Ht, <- app_assoc. cbn [app].
        rewrite nth_app_mid.
        replace (nth (length shp) (i ++ k :: j) 0) with k by (rewrite <- Hi; now rewrite nth_app_mid).
        replace (upd (length shp) (k - l) (i ++ k :: j)) with ((i ++ [k - l]) ++ j)
          by (rewrite <- Hi, upd_app_mid, <- app_assoc; reflexivity).
        rewrite Hsk. cbn [map2 fst snd forallb].
        destruct ((0 <=? k - l) && (k - l <? n)); cbn [andb]; auto.
        rewrite Hval by (rewrite ?app_length; simpl; lia).
        rewrite <- app_assoc. reflexivity.
      + rewrite E1. exists t'. rewrite <- app_assoc. cbn [app]. auto.
  Qed.
End PadProof.

Lemma C42_proof : C42_statement.
Proof.
  intros R value pad t Hlen.
  destruct (f_pad_pads value pad [] (tshape t) [] t t) as (t' & E1 & E2 & E3).
  - now rewrite app_nil_r.
  - auto.
  - reflexivity.
  - now rewrite skipn_all.
  - now rewrite firstn_all.
  - simpl; lia.
  - intros i j Hi Hj. destruct j; [|discriminate]. cbn [map2 forallb]. reflexivity.
  - rewrite app_nil_r in *. exists t'. split; auto. split; auto.
    intros i Hi. apply E3. lia.
Qed.

Theorem C42_padding : C42_statement.
Proof. exact C42_proof. Qed.

Example C42_example :
  let t := @mkt Zring [2; 3] (fun i => 10 * nth 0 i 0 + nth 1 i 0) in
  let pad := [(1, 0); (0, 2)] in
  distdl_padding_to_torch_padding pad = [0; 2; 1; 0] /\
  exists t', f_pad (R := Zring) 7 [0; 2; 1; 0] 2 t = Some t' /\ tshape t' = [3; 5] /\
    map (tat t') [[0; 0]; [1; 0]; [2; 2]; [2; 3]] = [7; 0; 12; 7].
Proof. split; [reflexivity|]. eexists. split; [reflexivity|]. split; reflexivity. Qed.

(** * C43 *)

Definition C43_statement : Prop := forall (R : CRing) (x dy : tensor R),
  Forall (fun n => 0 <= n) (tshape x) ->
  let (ctx, y) := zv_forward x in
  (0 < zprod (tshape x) -> y = x /\ zv_backward ctx dy = Some dy) /\
  (~ 0 < zprod (tshape x) ->
     tshape y = [] /\
     exists dx, zv_backward ctx dy = Some dx /\ tshape dx = tshape x).

(** Everything but the shape of the gradient, which is [(b, 0)] with [b] the
    first extent of the input: zero-volume, and the original shape exactly for
    inputs of that form. *)
Definition C43_partial_statement : Prop := forall (R : CRing) (x dy : tensor R),
  Forall (fun n => 0 <= n) (tshape x) ->
  let (ctx, y) := zv_forward x in
  (0 < zprod (tshape x) -> y = x /\ zv_backward ctx dy = Some dy) /\
  (~ 0 < zprod (tshape x) ->
     tshape y = [] /\
     exists dx b, zv_backward ctx dy = Some dx /\ tshape dx = [b; 0] /\ indices (tshape dx) = [] /\
       (tshape dx = tshape x <-> exists b', tshape x = [b'; 0])).

Lemma zprod_pos_or l : Forall (fun n => 0 <= n) l -> 0 <= zprod l.
Proof.
  induction 1; [simpl; lia|]. change (0 <= x * zprod l). nia.
Qed.

Lemma C43_partial_proof : C43_partial_statement.
Proof.
  intros R x dy Hnn. pose proof (zprod_pos_or _ Hnn) as Hz.
  unfold zv_forward. destruct (zprod (tshape x) =? 0) eqn:E; breflect; split; intros Hv; try lia.
  - split; auto. unfold zv_backward; cbn [zv_zero zv_sh].
    destruct (tshape x) as [|b sh] eqn:Es; [simpl in E; lia|].
    exists (mkt [b; 0] (fun _ => rzero)), b. split; auto. split; auto. split.
    + cbn [tshape]. clear. destruct (indices [b; 0]) as [|i l] eqn:Ei; auto.
      assert (Hin : In i (indices [b; 0])) by (rewrite Ei; simpl; auto).
      apply in_indices in Hin. exfalso. clear Ei.
      unfold valid_index in Hin. inv Hin. inv H3. lia.
    + cbn [tshape]. split; [eauto|]. intros (b' & [= -> ->]). reflexivity.
  - split; auto.
Qed.

Theorem C43_zero_volume_partial : C43_partial_statement.
Proof. exact C43_partial_proof. Qed.

(** An empty batch of five features, shape (0, 5), gets a gradient of shape
    (0, 0). *)
Theorem C43_zero_volume_refuted : ~ C43_statement.
Proof.
  intros H. specialize (H Zring (@mkt Zring [0; 5] (fun _ => 0)) (@mkt Zring [] (fun _ => 1))).
  assert (Hn : Forall (fun n => 0 <= n) [0; 5]) by (repeat constructor; lia).
  specialize (H Hn). cbn in H. destruct H as [_ H].
  destruct H as (_ & dx & E & Hs); [lia|]. injection E as <-. discriminate.
Qed.

Example C43_example :
  let x := @mkt Zring [3; 0] (fun _ => 0) in
  tshape (snd (zv_forward x)) = [] /\
  exists dx, zv_backward (fst (zv_forward x)) (@mkt Zring [] (fun _ => 5)) = Some dx /\ tshape dx = [3; 0].
Proof. split; [reflexivity|]. eexists. split; reflexivity. Qed.

(** * C44 *)

(** The partitions each implementation is written for (the class comments of
    conv_feature.py, conv_channel.py, conv_general.py). *)
Definition can_handle (k : conv_class) (P_x : list Z) (P_y P_w : option (list Z)) : Prop :=
  match k with
  | FeatureConv => exists f, P_x = 1 :: 1 :: f
  | ChannelConv => exists ci co n, P_x = 1 :: ci :: repeat 1 n /\
                     P_y = Some (1 :: co :: repeat 1 n) /\ P_w = Some (co :: ci :: repeat 1 n)
  | GeneralConv => exists ci co f, P_x = 1 :: ci :: f /\
                     P_y = Some (1 :: co :: f) /\ P_w = Some (co :: ci :: f)
  end.

(** The constructor accepts only what the class can handle, and all workers
    agree. *)
Definition C44_statement : Prop := forall n P_x P_y P_w,
  length P_x = (n + 2)%nat ->
  (forall y, P_y = Some y -> length y = (n + 2)%nat) ->
  (forall w, P_w = Some w -> length w = (n + 2)%nat) ->
  (forall k, conv_construct P_x P_y P_w true true = inl k -> can_handle k P_x P_y P_w) /\
  (forall a b, conv_construct P_x P_y P_w a b = conv_construct P_x P_y P_w true true).

(** As above for partitions that do not divide the batch (and, for the feature
    class, the channels), which no class checks; and a worker's view agrees
    whenever the partitions are accepted.  Partitions that some class can handle
    are accepted on every worker, by the channel class if there are no feature
    partitions and by the general class otherwise. *)
Definition C44_partial_statement : Prop := forall n P_x P_y P_w,
  length P_x = (n + 2)%nat ->
  (forall y, P_y = Some y -> length y = (n + 2)%nat) ->
  (forall w, P_w = Some w -> length w = (n + 2)%nat) ->
  (forall k, conv_construct P_x P_y P_w true true = inl k ->
     nth 0 P_x 0 = 1 -> (k = FeatureConv -> nth 1 P_x 0 = 1) ->
     (forall y, P_y = Some y -> nth 0 y 0 = 1) ->
     can_handle k P_x P_y P_w /\
     (k = GeneralConv -> ~ can_handle ChannelConv P_x P_y P_w) /\
     forall a b, conv_construct P_x P_y P_w a b = inl k) /\
  (P_y = None -> P_w = None -> conv_construct P_x P_y P_w true true = inl FeatureConv) /\
  (can_handle GeneralConv P_x P_y P_w ->
     forall a b, conv_construct P_x P_y P_w a b =
       inl (if forallb (Z.eqb 1) (skipn 2 P_x) then ChannelConv else GeneralConv)) /\
  (((exists y, P_y = Some y) /\ P_w = None \/ P_y = None /\ (exists w, P_w = Some w)) ->
     forall a b, conv_construct P_x P_y P_w a b = inr NoMatchingClass).

Lemma np_any_neq_false a b : length a = length b -> np_any_neq a b = false -> a = b.
Proof.
  intros Hl H.
  assert (G : existsb (fun p => negb (fst p =? snd p)) (combine a b) = false -> a = b).
  { clear H. revert b Hl. induction a as [|x a IH]; destruct b as [|y b]; simpl; intros; auto; try discriminate.
    apply orb_false_iff in H. destruct H as [H1 H2]. apply negb_false_iff, Z.eqb_eq in H1. subst.
    f_equal. apply IH; auto. }
  unfold np_any_neq in H. destruct a as [|x [|x2 a]]; destruct b as [|y [|y2 b]]; auto; try discriminate.
  - rewrite Hl, Nat.eqb_refl in H. auto.
Qed.

Lemma np_any_neq_refl a : np_any_neq a a = false.
Proof.
  assert (G : existsb (fun p => negb (fst p =? snd p)) (combine a a) = false).
  { induction a as [|x a IH]; simpl; auto. now rewrite Z.eqb_refl, IH. }
  unfold np_any_neq. destruct a as [|x [|x2 a]]; [reflexivity| |rewrite Nat.eqb_refl; exact G].
  cbn [combine existsb fst snd] in G. cbn [existsb]. exact G.
Qed.

Lemma all_ones l : forallb (Z.eqb 1) l = true -> l = repeat 1 (length l).
Proof.
  induction l as [|x l IH]; cbn [forallb length repeat]; auto. intros H.
  apply andb_true_iff in H. destruct H as [H1 H2].
  apply Z.eqb_eq in H1. subst. f_equal. auto.
Qed.

Lemma ones_all n : forallb (Z.eqb 1) (repeat 1 n) = true.
Proof. induction n; simpl; auto. Qed.

Lemma conv_check_none k c P w n :
  length P = (n + 2)%nat -> length w = (n + 2)%nat -> (c < 2)%nat ->
  conv_check k c P w = None ->
  skipn 2 P = skipn 2 w /\ nth c w 0 = nth 1 P 0.
Proof.
  intros HP Hw Hc H. unfold conv_check in H.
  destruct (np_any_neq (skipn 2 P) (skipn 2 w)) eqn:E1; [discriminate|].
  apply np_any_neq_false in E1; [|rewrite !skipn_length; lia]. split; auto.
  destruct (match k with ChannelConv => _ | _ => _ end); [discriminate|].
  destruct (nth_error w c) eqn:Ew; [|discriminate].
  destruct (nth_error P 1) eqn:EP; [|discriminate].
  destruct (z =? z0) eqn:E; [|discriminate]. breflect. subst.
  apply nth_error_nth with (d := 0) in Ew. apply nth_error_nth with (d := 0) in EP. congruence.
Qed.

Lemma C44_partial_proof : C44_partial_statement.
Proof.
  intros n P_x P_y P_w Hx Hy Hw. split; [|split; [|split]].
  - intros k Hk Hb Hc Hby.
    destruct P_y as [y|], P_w as [w|]; unfold conv_construct in *; cbn [conv_select] in *; try discriminate.
    + specialize (Hy _ eq_refl). specialize (Hw _ eq_refl). specialize (Hby _ eq_refl).
      set (sel := forallb (Z.eqb 1) (skipn 2 P_x) && forallb (Z.eqb 1) (skipn 2 y)) in *.
      assert (Hkk : k = (if sel then ChannelConv else GeneralConv) /\
                    conv_check k 1 P_x w = None /\ conv_check k 0 y w = None).
      { destruct sel; [set (kk := ChannelConv) in * | set (kk := GeneralConv) in *];
          destruct (conv_check kk 1 P_x w) eqn:E1; try discriminate;
          destruct (conv_check kk 0 y w) eqn:E2; try discriminate;
          injection Hk as <-; auto. }
      destruct Hkk as (Ek & C1 & C2).
      pose proof (conv_check_none k 1 P_x w n Hx Hw ltac:(lia) C1) as [S1 N1].
      pose proof (conv_check_none k 0 y w n Hy Hw ltac:(lia) C2) as [S2 N2].
      destruct P_x as [|b [|ci f]]; cbn [length] in Hx; try lia.
      destruct y as [|b' [|co f']]; cbn [length] in Hy; try lia.
      destruct w as [|co' [|ci' f'']]; cbn [length] in Hw; try lia.
      cbn [nth skipn] in *. subst b b' f'' co' ci' f'.
      split; [|split].
      * destruct sel eqn:Es; subst k; cbn [can_handle].
        -- unfold sel in Es. apply andb_true_iff in Es. destruct Es as [Es _]. apply all_ones in Es.
           rewrite Es in *. exists ci, co, (length f). auto.
        -- exists ci, co, f. auto.
      * intros Hg (ci2 & co2 & m & E & _). injection E as -> ->.
        unfold sel in Ek. rewrite ones_all in Ek. cbn [andb] in Ek. congruence.
      * intros a b. subst k. destruct sel.
        -- rewrite C1. replace (if a then None else None) with (@None conv_error) by now destruct a.
           rewrite C2. now destruct b.
        -- rewrite C1. replace (if a then None else None) with (@None conv_error) by now destruct a.
           rewrite C2. now destruct b.
    + injection Hk as <-. split; [|split]; auto; try congruence.
      destruct P_x as [|b [|c f]]; cbn [length] in Hx; try lia. cbn [nth] in *. subst b.
      rewrite (Hc eq_refl). now exists f.
  - intros -> ->. reflexivity.
  - intros (ci & co & f & -> & -> & ->) a b.
    unfold conv_construct. cbn [conv_select skipn].
    assert (Hx' : conv_check GeneralConv 1 (1 :: ci :: f) (co :: ci :: f) = None).
    { unfold conv_check. cbn [skipn nth_error]. now rewrite np_any_neq_refl, Z.eqb_refl. }
    assert (Hy' : conv_check GeneralConv 0 (1 :: co :: f) (co :: ci :: f) = None).
    { unfold conv_check. cbn [skipn nth_error]. now rewrite np_any_neq_refl, Z.eqb_refl. }
    destruct (forallb (Z.eqb 1) f) eqn:Ef; cbn [andb].
    + assert (Hn : np_any_neq f (repeat 1 (length f)) = false).
      { rewrite <- (all_ones f Ef). apply np_any_neq_refl. }
      assert (Hc : forall c P, conv_check GeneralConv c P (co :: ci :: f) = None -> skipn 2 P = f ->
                 conv_check ChannelConv c P (co :: ci :: f) = None).
      { intros c P H HP. unfold conv_check in *. rewrite HP in *. cbn [skipn] in *.
        rewrite np_any_neq_refl in *. now rewrite Hn. }
      rewrite (Hc 1%nat _ Hx' eq_refl), (Hc 0%nat _ Hy' eq_refl). now destruct a, b.
    + rewrite Hx', Hy'. now destruct a, b.
  - intros [[[y ->] ->]|[-> [w ->]]] a b; reflexivity.
Qed.

Theorem C44_selector_partial : C44_partial_statement.
Proof. exact C44_partial_proof. Qed.

(** A P_x that divides the channels, without P_y and P_w, goes to the feature
    class, which does not refuse it. *)
Theorem C44_selector_refuted : ~ C44_statement.
Proof.
  intros H. specialize (H 1%nat [1; 2; 1] None None eq_refl ltac:(discriminate) ltac:(discriminate)).
  destruct H as [H _]. destruct (H FeatureConv eq_refl) as [f E]. discriminate.
Qed.

(** With partitions that do not fit together a worker of P_x raises while a
    worker of P_y or P_w goes on with the constructor's collective operations. *)
Theorem C44_agreement_refuted :
  exists P_x P_y P_w,
    conv_construct P_x (Some P_y) (Some P_w) true false = inr ChannelMismatch /\
    conv_construct P_x (Some P_y) (Some P_w) false true = inl GeneralConv /\
    conv_construct P_x (Some P_y) (Some P_w) false false = inl GeneralConv.
Proof. exists [1; 2; 2], [1; 1; 2], [1; 1; 2]. repeat split. Qed.

(** A batch partition is accepted too. *)
Theorem C44_batch_refuted :
  conv_construct [2; 1; 3] (Some [2; 1; 3]) (Some [1; 1; 3]) true true = inl GeneralConv /\
    ~ can_handle GeneralConv [2; 1; 3] (Some [2; 1; 3]) (Some [1; 1; 3]).
Proof. split; [reflexivity|]. intros (ci & co & f & E & _). discriminate. Qed.

Example C44_example :
  conv_construct [1; 1; 2; 3] None None true true = inl FeatureConv /\
    conv_construct [1; 3; 1; 1] (Some [1; 2; 1; 1]) (Some [2; 3; 1; 1]) true true = inl ChannelConv /\
    conv_construct [1; 3; 2; 1] (Some [1; 2; 2; 1]) (Some [2; 3; 2; 1]) true true = inl GeneralConv /\
    conv_construct [1; 3; 2; 1] (Some [1; 2; 2; 1]) None true true = inr NoMatchingClass.
Proof. repeat split. Qed.

Print Assumptions C41_type_codes.
Print Assumptions C42_padding.
Print Assumptions C43_zero_volume_partial.
Print Assumptions C43_zero_volume_refuted.
Print Assumptions C44_selector_partial.
Print Assumptions C44_selector_refuted.
Print Assumptions C44_agreement_refuted.
Print Assumptions C44_batch_refuted.
