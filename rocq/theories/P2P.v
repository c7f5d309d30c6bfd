(** Point-to-point communication with non-blocking operations and completion
    loops.

    A worker runs a list of rounds.  In a round it executes actions (post a
    receive, post a send, append a null request, compute locally) and then the
    loop
<<
      completed = 0
      while completed < len(requests):
          index = Waitany(requests)
          (if a receive completed: unpack it)
          completed += 1
>>
    as in functional/repartition.py:190-205 and functional/halo_exchange.py:59-72
    of backends/mpi.

    MPI is modelled as follows.  Messages between two workers with one tag are
    matched in the order of posting.  A receive may complete as soon as the
    matching message was posted.  A send may complete as soon as the matching
    receive was posted, or at once when MPI buffers it: [eager] says for which
    messages it does, and the theorems hold for every [eager].  [Waitany]
    completes any request that can complete, blocks when some request is active
    and none can complete, and returns [MPI.UNDEFINED] when all are null.  A
    completed request becomes null (mpi4py writes [MPI.REQUEST_NULL] back).  The
    payload of a send is read when it is posted; the code does not touch a send
    buffer before the loop is over (and C22 shows that buffers do not alias). *)

From Coq Require Import RelationClasses.
From Verif Require Import Prelude.

Section P2P.
  Context {S M : Type}.

  Inductive action : Type :=
  | ARecv (src tag : Z) (h : M -> S -> S)    (* Irecv; [h] unpacks *)
  | ASend (dst tag : Z) (f : S -> M)         (* Isend; [f] packs *)
  | ANull                                    (* MPI.REQUEST_NULL *)
  | ALocal (f : S -> S).

  (** A request remembers which message of its channel it is. *)
  Inductive req : Type :=
  | QNull
  | QRecv (src tag : Z) (n : nat) (h : M -> S -> S)
  | QSend (dst tag : Z) (n : nat).

  Definition is_null (q : req) : bool := match q with QNull => true | _ => false end.

  Record wst := mkwst {
    wround : nat;           (* current round *)
    wpos : nat;             (* actions of the round executed *)
    wreqs : list req;       (* the request array *)
    wcnt : nat;             (* iterations of the completion loop *)
    wdata : S
  }.

  (** The state of all workers and of the network: per (source, destination,
      tag) the messages posted and the number of receives posted.  [glog] records
      which requests (worker, round, index) were returned by [Waitany]. *)
  Record gst := mkgst {
    gw : Z -> wst;
    gsent : Z -> Z -> Z -> list M;
    grecv : Z -> Z -> Z -> nat;
    glog : list (Z * nat * nat)
  }.

  Variable workers : list Z.
  Variable prog : Z -> list (list action).
  Variable init : Z -> S.
  Variable eager : Z -> Z -> Z -> nat -> bool.

  Definition code (w : Z) (r : nat) : list action := nth r (prog w) [].

  Definition ginit : gst :=
    mkgst (fun w => mkwst 0 0 [] 0 (init w)) (fun _ _ _ => []) (fun _ _ _ => 0%nat) [].

  Definition set_w (f : Z -> wst) (w : Z) (x : wst) : Z -> wst :=
    fun u => if Z.eq_dec u w then x else f u.

  Definition set_c {T} (f : Z -> Z -> Z -> T) (s d t : Z) (x : T) : Z -> Z -> Z -> T :=
    fun s' d' t' => if (s' =? s) && (d' =? d) && (t' =? t) then x else f s' d' t'.

  Definition push (x : wst) (q : req) : wst :=
    mkwst (wround x) (1 + wpos x) (wreqs x ++ [q]) (wcnt x) (wdata x).

  (** Execute one action. *)
  Definition exec (g : gst) (w : Z) (a : action) : gst :=
    let x := gw g w in
    match a with
    | ARecv s t h =>
        mkgst (set_w (gw g) w (push x (QRecv s t (grecv g s w t) h))) (gsent g)
              (set_c (grecv g) s w t (1 + grecv g s w t)%nat) (glog g)
    | ASend d t f =>
        mkgst (set_w (gw g) w (push x (QSend d t (length (gsent g w d t)))))
              (set_c (gsent g) w d t (gsent g w d t ++ [f (wdata x)])) (grecv g) (glog g)
    | ANull => mkgst (set_w (gw g) w (push x QNull)) (gsent g) (grecv g) (glog g)
    | ALocal f =>
        mkgst (set_w (gw g) w (mkwst (wround x) (1 + wpos x) (wreqs x) (wcnt x) (f (wdata x))))
              (gsent g) (grecv g) (glog g)
    end.

  (** The effect of a completion on the local data; [None] if the request cannot
      complete. *)
  Definition complete (g : gst) (w : Z) (q : req) : option S :=
    match q with
    | QNull => None
    | QRecv s t n h => option_map (fun m => h m (wdata (gw g w))) (nth_error (gsent g s w t) n)
    | QSend d t n => if eager w d t n || (n <? grecv g w d t)%nat then Some (wdata (gw g w)) else None
    end.

  Inductive step : gst -> gst -> Prop :=
  | step_act g w a :
      In w workers ->
      nth_error (code w (wround (gw g w))) (wpos (gw g w)) = Some a ->
      step g (exec g w a)
  | step_wait g w i q s :
      In w workers ->
      wpos (gw g w) = length (code w (wround (gw g w))) ->
      (wcnt (gw g w) < length (wreqs (gw g w)))%nat ->
      nth_error (wreqs (gw g w)) i = Some q ->
      complete g w q = Some s ->
      step g (mkgst (set_w (gw g) w
                       (mkwst (wround (gw g w)) (wpos (gw g w)) (upd i QNull (wreqs (gw g w)))
                              (1 + wcnt (gw g w)) s))
                    (gsent g) (grecv g) ((w, wround (gw g w), i) :: glog g))
  | step_undef g w :
      In w workers ->
      wpos (gw g w) = length (code w (wround (gw g w))) ->
      (wcnt (gw g w) < length (wreqs (gw g w)))%nat ->
      forallb is_null (wreqs (gw g w)) = true ->
      step g (mkgst (set_w (gw g) w
                       (mkwst (wround (gw g w)) (wpos (gw g w)) (wreqs (gw g w))
                              (1 + wcnt (gw g w)) (wdata (gw g w))))
                    (gsent g) (grecv g) (glog g))
  | step_next g w :
      In w workers ->
      (wround (gw g w) < length (prog w))%nat ->
      wpos (gw g w) = length (code w (wround (gw g w))) ->
      wcnt (gw g w) = length (wreqs (gw g w)) ->
      step g (mkgst (set_w (gw g) w (mkwst (1 + wround (gw g w)) 0 [] 0 (wdata (gw g w))))
                    (gsent g) (grecv g) (glog g)).

  (** Executions from the start, with their number of steps. *)
  Inductive run : nat -> gst -> Prop :=
  | run_init : run 0 ginit
  | run_step n g g' : run n g -> step g g' -> run (1 + n) g'.

  Definition done (g : gst) : Prop :=
    forall w, In w workers -> wround (gw g w) = length (prog w).

  (** ** The meaning of the rounds when everything happens in lock-step *)

  Fixpoint acts_run (l : list action) (s : S) : S :=
    match l with
    | [] => s
    | ALocal f :: l' => acts_run l' (f s)
    | _ :: l' => acts_run l' s
    end.

  (** The payloads sent to [d] with tag [t]. *)
  Fixpoint pay (d t : Z) (l : list action) (s : S) : list M :=
    match l with
    | [] => []
    | ALocal f :: l' => pay d t l' (f s)
    | ASend d' t' f :: l' =>
        if (d' =? d) && (t' =? t) then f s :: pay d t l' s else pay d t l' s
    | _ :: l' => pay d t l' s
    end.

  (** Unpack all messages in the order of the receives. *)
  Fixpoint unpack_all (msgs : Z -> Z -> list M) (l : list action) (s : S) : S :=
    match l with
    | [] => s
    | ARecv src t h :: l' =>
        unpack_all msgs l' (match msgs src t with m :: _ => h m s | [] => s end)
    | _ :: l' => unpack_all msgs l' s
    end.

  Definition sync_round (r : nat) (S0 : Z -> S) : Z -> S :=
    fun w => unpack_all (fun src t => pay w t (code src r) (S0 src)) (code w r)
               (acts_run (code w r) (S0 w)).

  Fixpoint sync (r : nat) : Z -> S :=
    match r with
    | O => init
    | Datatypes.S r' => sync_round r' (sync r')
    end.

  (** ** Hypotheses on the programs *)

  Definition is_send (d t : Z) (a : action) : bool :=
    match a with ASend d' t' _ => (d' =? d) && (t' =? t) | _ => false end.
  Definition is_recv (s t : Z) (a : action) : bool :=
    match a with ARecv s' t' _ => (s' =? s) && (t' =? t) | _ => false end.
  Definition sends_in (d t : Z) (l : list action) : nat := length (filter (is_send d t) l).
  Definition recvs_in (s t : Z) (l : list action) : nat := length (filter (is_recv s t) l).

  (** Sends and receives match within each round. *)
  Definition matched : Prop :=
    (forall w w', In w workers -> In w' workers -> length (prog w) = length (prog w')) /\
    (forall w r d t, In w workers -> (0 < sends_in d t (code w r))%nat -> In d workers) /\
    (forall w r s t, In w workers -> (0 < recvs_in s t (code w r))%nat -> In s workers) /\
    (forall s d r t, In s workers -> In d workers ->
       sends_in d t (code s r) = recvs_in s t (code d r) /\ (sends_in d t (code s r) <= 1)%nat).

  Variable eqS : S -> S -> Prop.
  Variable eqM : M -> M -> Prop.
  Hypothesis eqS_equiv : Equivalence eqS.
  Hypothesis eqM_equiv : Equivalence eqM.

  Definition act_proper (a : action) : Prop :=
    match a with
    | ARecv _ _ h => forall m m' s s', eqM m m' -> eqS s s' -> eqS (h m s) (h m' s')
    | ASend _ _ f => forall s s', eqS s s' -> eqM (f s) (f s')
    | ANull => True
    | ALocal f => forall s s', eqS s s' -> eqS (f s) (f s')
    end.

  Definition act_commute (a b : action) : Prop :=
    match a, b with
    | ARecv _ _ h, ARecv _ _ h' => forall m m' s, eqS (h m (h' m' s)) (h' m' (h m s))
    | _, _ => True
    end.

  Definition proper : Prop := forall w r a, In w workers -> In a (code w r) -> act_proper a.
  Definition commuting : Prop :=
    forall w r, In w workers -> ForallOrdPairs act_commute (code w r).

  Hypothesis Hmatch : matched.
  Hypothesis Hproper : proper.
  Hypothesis Hcomm : commuting.
  Hypothesis Hnodup : NoDup workers.

  (** ** Invariant *)

  Definition before (w : Z) (r : nat) : list action := concat (firstn r (prog w)).

  Definition req_of (w : Z) (r : nat) (a : action) : list req :=
    match a with
    | ARecv s t h => [QRecv s t (recvs_in s t (before w r)) h]
    | ASend d t _ => [QSend d t (sends_in d t (before w r))]
    | ANull => [QNull]
    | ALocal _ => []
    end.
  Definition reqs_of (w : Z) (r : nat) (l : list action) : list req := flat_map (req_of w r) l.

  Definition msgs (r : nat) (src dst t : Z) : list M := pay dst t (code src r) (sync r src).

  Definition eff (w : Z) (r : nat) (q : req) (s : S) : S :=
    match q with
    | QRecv src t _ h => match msgs r src w t with m :: _ => h m s | [] => s end
    | _ => s
    end.

  Definition deliver (w : Z) (r : nat) (l : list req) (s : S) : S :=
    fold_left (fun s q => eff w r q s) l s.

  Definition active (l : list req) : nat := length (filter (fun q => negb (is_null q)) l).

  Definition done_code (x : wst) (w : Z) : list action :=
    before w (wround x) ++ firstn (wpos x) (code w (wround x)).

  Definition total (src dst t : Z) : list M :=
    concat (map (fun r => msgs r src dst t) (seq 0 (length (prog src)))).

  Definition posting (x : wst) (w : Z) : Prop :=
    wcnt x = 0%nat /\
    wreqs x = reqs_of w (wround x) (firstn (wpos x) (code w (wround x))) /\
    eqS (wdata x) (acts_run (firstn (wpos x) (code w (wround x))) (sync (wround x) w)).

  Definition looping (x : wst) (w : Z) : Prop :=
    wpos x = length (code w (wround x)) /\
    Forall2 (fun q0 q => q = q0 \/ q = QNull) (reqs_of w (wround x) (code w (wround x))) (wreqs x) /\
    (wcnt x + active (wreqs x) <= length (wreqs x))%nat /\
    eqS (deliver w (wround x) (wreqs x) (wdata x)) (sync (1 + wround x) w).

  Definition request_at (w : Z) (r i : nat) : Prop :=
    exists q, nth_error (reqs_of w r (code w r)) i = Some q /\ q <> QNull.

  Definition consumed (x : wst) (w : Z) (r i : nat) : Prop :=
    ((r < wround x)%nat /\ request_at w r i) \/
    (r = wround x /\ request_at w r i /\ nth_error (wreqs x) i = Some QNull).

  (** Steps taken by a worker, and all steps it has to take. *)
  Definition round_work (w : Z) (r : nat) : nat :=
    (length (code w r) + length (reqs_of w r (code w r)) + 1)%nat.
  Definition work (w : Z) (r : nat) : nat := list_sum (map (round_work w) (seq 0 r)).
  Definition progress (x : wst) (w : Z) : nat := (work w (wround x) + wpos x + wcnt x)%nat.

  Record Inv (n : nat) (g : gst) : Prop := {
    inv_round : forall w, In w workers -> (wround (gw g w) <= length (prog w))%nat;
    inv_pos : forall w, In w workers -> (wpos (gw g w) <= length (code w (wround (gw g w))))%nat;
    inv_phase : forall w, In w workers -> posting (gw g w) w \/ looping (gw g w) w;
    inv_sent_len : forall w d t, In w workers ->
      length (gsent g w d t) = sends_in d t (done_code (gw g w) w);
    inv_recv_len : forall w s t, In w workers ->
      grecv g s w t = recvs_in s t (done_code (gw g w) w);
    inv_sent : forall w d t k m, In w workers -> nth_error (gsent g w d t) k = Some m ->
      exists m', nth_error (total w d t) k = Some m' /\ eqM m m';
    inv_log : NoDup (glog g);
    inv_log_in : forall w r i, In (w, r, i) (glog g) <-> In w workers /\ consumed (gw g w) w r i;
    inv_steps : list_sum (map (fun w => progress (gw g w) w) workers) = n
  }.

  (** *** Small lemmas *)

  Lemma set_w_same f w x : set_w f w x w = x.
  Proof. unfold set_w. destruct (Z.eq_dec w w); congruence. Qed.

  Lemma set_w_other f w x u : u <> w -> set_w f w x u = f u.
  Proof. intros H. unfold set_w. destruct (Z.eq_dec u w); congruence. Qed.

  Lemma set_c_same {T} (f : Z -> Z -> Z -> T) s d t x : set_c f s d t x s d t = x.
  Proof. unfold set_c. now rewrite !Z.eqb_refl. Qed.

  Lemma set_c_other {T} (f : Z -> Z -> Z -> T) s d t x s' d' t' :
    (s', d', t') <> (s, d, t) -> set_c f s d t x s' d' t' = f s' d' t'.
  Proof.
    intros H. unfold set_c. destruct (s' =? s) eqn:E1, (d' =? d) eqn:E2, (t' =? t) eqn:E3;
      simpl; auto. breflect. congruence.
  Qed.

  Lemma sends_app d t l1 l2 : sends_in d t (l1 ++ l2) = (sends_in d t l1 + sends_in d t l2)%nat.
  Proof. unfold sends_in. now rewrite filter_app, app_length. Qed.
  Lemma recvs_app s t l1 l2 : recvs_in s t (l1 ++ l2) = (recvs_in s t l1 + recvs_in s t l2)%nat.
  Proof. unfold recvs_in. now rewrite filter_app, app_length. Qed.

  Lemma acts_run_app l1 l2 s : acts_run (l1 ++ l2) s = acts_run l2 (acts_run l1 s).
  Proof. revert s. induction l1 as [|[] l1 IH]; simpl; auto. Qed.

  Lemma pay_app d t l1 l2 s : pay d t (l1 ++ l2) s = pay d t l1 s ++ pay d t l2 (acts_run l1 s).
  Proof.
    revert s. induction l1 as [|[] l1 IH]; intros s; simpl; auto.
    destruct (_ && _); simpl; now rewrite IH.
  Qed.

  Lemma pay_length d t l s : length (pay d t l s) = sends_in d t l.
  Proof.
    revert s. unfold sends_in. induction l as [|[] l IH]; intros s; simpl; auto.
    destruct (_ && _); simpl; now rewrite IH.
  Qed.

  Lemma firstn_S_snoc {T} (l : list T) k a : nth_error l k = Some a ->
    firstn (1 + k) l = firstn k l ++ [a].
  Proof.
    revert k. induction l as [|b l IH]; intros [|k] H; simpl in *; try discriminate.
    - now inversion H.
    - now rewrite <- IH.
  Qed.

  Lemma nth_skipn_cons {T} (l : list T) k a : nth_error l k = Some a ->
    skipn k l = a :: skipn (1 + k) l.
  Proof.
    revert k. induction l as [|b l IH]; intros [|k] H; simpl in *; try discriminate.
    - now inversion H.
    - now rewrite IH with (k := k).
  Qed.

  Lemma code_nth w r : (r < length (prog w))%nat -> nth_error (prog w) r = Some (code w r).
  Proof. intros H. unfold code. now apply nth_error_nth'. Qed.

  Lemma before_S w r : (r < length (prog w))%nat -> before w (1 + r) = before w r ++ code w r.
  Proof.
    intros H. unfold before. rewrite (firstn_S_snoc _ _ (code w r)) by now apply code_nth.
    rewrite concat_app. simpl. now rewrite app_nil_r.
  Qed.

  Lemma code_beyond w r : (length (prog w) <= r)%nat -> code w r = [].
  Proof. intros. unfold code. now apply nth_overflow. Qed.

  (** The numbering of the messages of a channel is the same on both sides. *)
  Lemma channel_numbers s d t r : In s workers -> In d workers ->
    sends_in d t (before s r) = recvs_in s t (before d r).
  Proof.
    intros Hs Hd. destruct Hmatch as (M1 & _ & _ & M4).
    induction r as [|r IH].
    - unfold before. reflexivity.
    - destruct (Nat.lt_ge_cases r (length (prog s))) as [L|L].
      + change (Datatypes.S r) with (1 + r)%nat.
        rewrite !before_S by (rewrite ?(M1 d s); auto).
        rewrite sends_app, recvs_app, IH. f_equal. now apply M4.
      + revert IH. unfold before. rewrite !firstn_all2; auto; try lia.
        all: rewrite (M1 d s); auto; lia.
  Qed.

  Lemma concat_seq_app {T} (f : nat -> list T) r n : (r <= n)%nat ->
    concat (map f (seq 0 n)) = concat (map f (seq 0 r)) ++ concat (map f (seq r (n - r))).
  Proof.
    intros H. replace n with (r + (n - r))%nat at 1 by lia.
    rewrite seq_app, map_app, concat_app. simpl. reflexivity.
  Qed.

  Lemma msgs_before_length s d t r : In s workers -> (r <= length (prog s))%nat ->
    length (concat (map (fun r => msgs r s d t) (seq 0 r))) = sends_in d t (before s r).
  Proof.
    intros Hs. induction r as [|r IH]; intros H; auto.
    rewrite seq_S, map_app, concat_app, app_length. simpl. rewrite app_nil_r.
    change (Datatypes.S r) with (1 + r)%nat. rewrite before_S by lia.
    rewrite sends_app, IH by lia. unfold msgs. now rewrite pay_length.
  Qed.

  Lemma total_split s d t r : (r < length (prog s))%nat ->
    total s d t = concat (map (fun r => msgs r s d t) (seq 0 r)) ++ msgs r s d t ++
                  concat (map (fun r => msgs r s d t) (seq (1 + r) (length (prog s) - (1 + r)))).
  Proof.
    intros H. unfold total. rewrite (concat_seq_app _ r) by lia. f_equal.
    replace (length (prog s) - r)%nat with (Datatypes.S (length (prog s) - (1 + r))) by lia.
    reflexivity.
  Qed.

  (** The message of round [r] in the whole sequence of a channel. *)
  Lemma total_at s d t r m rest : In s workers -> (r < length (prog s))%nat ->
    msgs r s d t = m :: rest -> nth_error (total s d t) (sends_in d t (before s r)) = Some m.
  Proof.
    intros Hs H E. rewrite (total_split s d t r H), E.
    rewrite <- (msgs_before_length s d t r Hs) by lia.
    rewrite nth_error_app2 by lia. now rewrite Nat.sub_diag.
  Qed.

  Lemma msgs_nonempty r s d t : (0 < sends_in d t (code s r))%nat ->
    exists m, msgs r s d t = m :: tl (msgs r s d t).
  Proof.
    intros H. unfold msgs. rewrite <- (pay_length d t _ (sync r s)) in H.
    destruct (pay d t (code s r) (sync r s)); simpl in *; [lia|eauto].
  Qed.

  Lemma filter_pos {T} (p : T -> bool) l a : In a l -> p a = true -> (0 < length (filter p l))%nat.
  Proof.
    intros Ha Hp. assert (H : In a (filter p l)) by now apply filter_In.
    destruct (filter p l); [easy|simpl; lia].
  Qed.

  (** *** Properness and commutation of deliveries *)

  Lemma eff_proper w r q s s' : In w workers ->
    (forall src t n h, q = QRecv src t n h -> act_proper (ARecv src t h)) ->
    eqS s s' -> eqS (eff w r q s) (eff w r q s').
  Proof.
    intros Hw Hq E. destruct q; simpl; auto. destruct (msgs r src w tag); auto.
    apply (Hq _ _ _ _ eq_refl); auto. reflexivity.
  Qed.

  Definition req_proper (q : req) : Prop :=
    forall src t n h, q = QRecv src t n h -> act_proper (ARecv src t h).

  Lemma deliver_proper w r l s s' : In w workers -> Forall req_proper l ->
    eqS s s' -> eqS (deliver w r l s) (deliver w r l s').
  Proof.
    intros Hw Hl. revert s s'. induction Hl as [|q l Hq Hl IH]; intros s s' E; auto.
    apply IH. now apply eff_proper.
  Qed.

  Definition req_commute (w : Z) (r : nat) (q q' : req) : Prop :=
    forall s, eqS (eff w r q (eff w r q' s)) (eff w r q' (eff w r q s)).

  Lemma deliver_one w r l i q s : In w workers -> Forall req_proper l ->
    ForallOrdPairs (req_commute w r) l -> nth_error l i = Some q ->
    eqS (deliver w r (upd i QNull l) (eff w r q s)) (deliver w r l s).
  Proof.
    intros Hw Hl HF. revert i s. induction HF as [|a l Ha HF IH]; intros [|i] s Hi; simpl in Hi;
      try discriminate.
    - inversion Hi; subst. reflexivity.
    - inv Hl. change (upd (Datatypes.S i) QNull (a :: l)) with (a :: upd i QNull l).
      unfold deliver. cbn [fold_left]. fold (deliver w r (upd i QNull l)). fold (deliver w r l).
      transitivity (deliver w r (upd i QNull l) (eff w r q (eff w r a s))).
      + apply deliver_proper; auto.
        * clear - H2. revert i. induction H2; intros [|i]; simpl; constructor; auto. easy.
        * rewrite Forall_forall in Ha. apply Ha. now apply nth_error_In with i.
      + now apply IH.
  Qed.

  Lemma reqs_of_app w r l1 l2 : reqs_of w r (l1 ++ l2) = reqs_of w r l1 ++ reqs_of w r l2.
  Proof. unfold reqs_of. now rewrite flat_map_app. Qed.

  Lemma reqs_of_proper w r l : (forall a, In a l -> act_proper a) -> Forall req_proper (reqs_of w r l).
  Proof.
    induction l as [|a l IH]; intros H; simpl; [constructor|].
    apply Forall_app. split; [|apply IH; intros; apply H; now right].
    specialize (H a (or_introl eq_refl)).
    destruct a; simpl; try constructor; auto; intros ? ? ? ? E; inversion E; subst; auto.
  Qed.

  Lemma reqs_of_commute w r l : ForallOrdPairs act_commute l ->
    ForallOrdPairs (req_commute w r) (reqs_of w r l).
  Proof.
    intros H. induction H as [|a l Ha HF IH]; simpl; [constructor|].
    destruct a as [src tag h|d t f| |f]; simpl; auto.
    - constructor; auto. apply Forall_forall. intros q Hq.
      unfold reqs_of in Hq. apply in_flat_map in Hq as (b & Hb & Hq).
      rewrite Forall_forall in Ha. specialize (Ha b Hb). intros s.
      destruct b as [src' tag' h'|d' t' f'| |f']; simpl in Hq; try easy; destruct Hq as [<-|[]]; simpl;
        try reflexivity.
      simpl in Ha. destruct (msgs r src w tag), (msgs r src' w tag'); try reflexivity. apply Ha.
    - constructor; auto. apply Forall_forall. intros q Hq s. simpl. reflexivity.
    - constructor; auto. apply Forall_forall. intros q Hq s. simpl. reflexivity.
  Qed.

  Lemma masked_pairs (R : req -> req -> Prop) l0 l :
    (forall q, R QNull q) -> (forall q, R q QNull) ->
    Forall2 (fun q0 q => q = q0 \/ q = QNull) l0 l ->
    ForallOrdPairs R l0 -> ForallOrdPairs R l.
  Proof.
    intros R1 R2 HF. induction HF as [|q0 q l0 l Hq HF IH]; intros HP; [constructor|].
    inversion HP as [|? ? HA HP']; subst. constructor; auto.
    rewrite Forall_forall in *. intros p Hp.
    destruct Hq as [-> | ->]; auto.
    clear - R2 HF HA Hp. induction HF as [|p0 p' l0 l Hp0 HF IH]; [easy|].
    destruct Hp as [<-|Hp].
    - destruct Hp0 as [-> | ->]; auto. apply HA. now left.
    - apply IH; auto. intros x Hx. apply HA. now right.
  Qed.

  Lemma masked_Forall (P : req -> Prop) l0 l : P QNull ->
    Forall2 (fun q0 q => q = q0 \/ q = QNull) l0 l -> Forall P l0 -> Forall P l.
  Proof.
    intros P0 HF. induction HF as [|q0 q l0 l Hq HF IH]; intros HP; constructor; inv HP; auto.
    destruct Hq as [-> | ->]; auto.
  Qed.

  Lemma masked_upd l0 l i : Forall2 (fun q0 q => q = q0 \/ q = QNull) l0 l ->
    Forall2 (fun q0 q => q = q0 \/ q = QNull) l0 (upd i QNull l).
  Proof.
    intros H. revert i. induction H; intros [|i]; simpl; constructor; auto.
  Qed.

  Lemma masked_nth l0 l i q : Forall2 (fun q0 q => q = q0 \/ q = QNull) l0 l ->
    nth_error l i = Some q -> q <> QNull -> nth_error l0 i = Some q.
  Proof.
    intros H. revert i. induction H as [|a b l0 l Hab H IH]; intros [|i] E N; simpl in *; try discriminate.
    - inversion E; subst. destruct Hab; congruence.
    - now apply IH.
  Qed.

  Lemma masked_refl l : Forall2 (fun q0 q => q = q0 \/ q = QNull) l l.
  Proof. induction l; constructor; auto. Qed.

  Lemma active_le l : (active l <= length l)%nat.
  Proof.
    unfold active. induction l as [|a l IH]; simpl; [lia|].
    destruct (negb (is_null a)); simpl; lia.
  Qed.

  Lemma active_upd l i q : nth_error l i = Some q -> q <> QNull ->
    active l = (1 + active (upd i QNull l))%nat.
  Proof.
    unfold active. revert i. induction l as [|a l IH]; intros [|i] H N; simpl in *; try discriminate.
    - inversion H; subst. destruct q; simpl; congruence.
    - destruct (negb (is_null a)); simpl; rewrite (IH i); auto.
  Qed.

  Lemma active_zero l : active l = 0%nat <-> forallb is_null l = true.
  Proof.
    unfold active. induction l as [|a l IH]; simpl; [easy|].
    destruct (is_null a); simpl; [auto|]. split; intros; discriminate.
  Qed.

  Lemma deliver_nulls w r l s : forallb is_null l = true -> deliver w r l s = s.
  Proof.
    revert s. induction l as [|a l IH]; intros s H; simpl in *; auto.
    apply andb_true_iff in H as [H1 H2]. destruct a; try discriminate. now apply IH.
  Qed.

  (** [sync] in terms of the request list. *)
  Lemma unpack_deliver w r l s :
    unpack_all (fun src t => msgs r src w t) l s = deliver w r (reqs_of w r l) s.
  Proof.
    revert s. induction l as [|[] l IH]; intros s; simpl; auto.
  Qed.

  Lemma sync_S w r : sync (1 + r) w =
    deliver w r (reqs_of w r (code w r)) (acts_run (code w r) (sync r w)).
  Proof. simpl. unfold sync_round. rewrite <- unpack_deliver. reflexivity. Qed.

  (** Entering the loop. *)
  Lemma posting_looping x w : In w workers -> posting x w ->
    wpos x = length (code w (wround x)) -> looping x w.
  Proof.
    intros Hw (P1 & P2 & P3) E. rewrite E, firstn_all in P2, P3.
    split; auto. rewrite P2, P1. split; [apply masked_refl|]. split; [simpl; apply active_le|].
    rewrite sync_S. apply deliver_proper; auto.
    apply reqs_of_proper. intros a Ha. now apply Hproper with w (wround x).
  Qed.

  Lemma posting_not_consumed x w i : posting x w -> (wpos x <= length (code w (wround x)))%nat ->
    request_at w (wround x) i -> nth_error (wreqs x) i = Some QNull -> False.
  Proof.
    intros (P1 & P2 & P3) Hp (q & Hq & Nq) E. rewrite P2 in E.
    rewrite <- (firstn_skipn (wpos x) (code w (wround x))), reqs_of_app in Hq.
    rewrite nth_error_app1 in Hq by (apply nth_error_Some; congruence). congruence.
  Qed.

  Lemma sum_update (f f' : Z -> nat) w : In w workers -> f' w = (1 + f w)%nat ->
    (forall u, u <> w -> f' u = f u) ->
    list_sum (map f' workers) = (1 + list_sum (map f workers))%nat.
  Proof.
    intros Hw E H. clear - Hnodup Hw E H. induction Hnodup as [|a l Ha HN IH]; [easy|].
    simpl. destruct Hw as [->|Hw].
    - rewrite E. assert (map f' l = map f l) as ->; [|lia].
      apply map_ext_in. intros u Hu. apply H. congruence.
    - rewrite IH by auto. rewrite H by congruence. lia.
  Qed.

  Lemma work_S w r : work w (1 + r) = (work w r + round_work w r)%nat.
  Proof.
    unfold work. change (1 + r)%nat with (Datatypes.S r).
    rewrite seq_S, map_app, list_sum_app. simpl. lia.
  Qed.

  Lemma looping_length x w : looping x w ->
    length (wreqs x) = length (reqs_of w (wround x) (code w (wround x))).
  Proof. intros (_ & H & _). symmetry. eapply Forall2_length; eauto. Qed.

  Lemma recv_number w r p s t h : In w workers -> nth_error (code w r) p = Some (ARecv s t h) ->
    recvs_in s t (firstn p (code w r)) = 0%nat.
  Proof.
    intros Hw Ha. destruct Hmatch as (M1 & M2 & M3 & M4).
    assert (Hpos : (0 < recvs_in s t (code w r))%nat).
    { unfold recvs_in. apply filter_pos with (ARecv s t h).
      - now apply nth_error_In with p.
      - simpl. now rewrite !Z.eqb_refl. }
    pose proof (M3 w r s t Hw Hpos) as Hs.
    destruct (M4 s w r t Hs Hw) as [E1 E2]. rewrite E1 in E2.
    rewrite <- (firstn_skipn p (code w r)), recvs_app in E2.
    rewrite (nth_skipn_cons _ _ _ Ha) in E2.
    change (ARecv s t h :: skipn (1 + p) (code w r)) with ([ARecv s t h] ++ skipn (1 + p) (code w r)) in E2.
    rewrite recvs_app in E2. unfold recvs_in at 2 in E2. simpl in E2.
    rewrite !Z.eqb_refl in E2. simpl in E2. lia.
  Qed.

  Lemma send_number w r p d t f : In w workers -> nth_error (code w r) p = Some (ASend d t f) ->
    sends_in d t (firstn p (code w r)) = 0%nat.
  Proof.
    intros Hw Ha. destruct Hmatch as (M1 & M2 & M3 & M4).
    assert (Hpos : (0 < sends_in d t (code w r))%nat).
    { unfold sends_in. apply filter_pos with (ASend d t f).
      - now apply nth_error_In with p.
      - simpl. now rewrite !Z.eqb_refl. }
    pose proof (M2 w r d t Hw Hpos) as Hs.
    destruct (M4 w d r t Hw Hs) as [E1 E2].
    rewrite <- (firstn_skipn p (code w r)), sends_app in E2.
    rewrite (nth_skipn_cons _ _ _ Ha) in E2.
    change (ASend d t f :: skipn (1 + p) (code w r)) with ([ASend d t f] ++ skipn (1 + p) (code w r)) in E2.
    rewrite sends_app in E2. unfold sends_in at 2 in E2. simpl in E2.
    rewrite !Z.eqb_refl in E2. simpl in E2. lia.
  Qed.

  Lemma Inv_init : Inv 0 ginit.
  Proof.
    constructor; simpl; intros; try lia.
    - left. repeat split; simpl; auto. reflexivity.
    - reflexivity.
    - reflexivity.
    - destruct k; discriminate.
    - constructor.
    - split; [easy|]. intros [_ [[H _]|(_ & _ & H)]].
      + simpl in H. lia.
      + simpl in H. destruct i; discriminate.
    - clear. induction workers; simpl; auto.
  Qed.

  (** The state after an action of worker [w]. *)
  Lemma exec_gw_other g w a u : u <> w -> gw (exec g w a) u = gw g u.
  Proof. intros H. destruct a; simpl; now apply set_w_other. Qed.

  Lemma exec_wround g w a : wround (gw (exec g w a) w) = wround (gw g w).
  Proof. destruct a; simpl; now rewrite set_w_same. Qed.
  Lemma exec_wpos g w a : wpos (gw (exec g w a) w) = (1 + wpos (gw g w))%nat.
  Proof. destruct a; simpl; now rewrite set_w_same. Qed.
  Lemma exec_wcnt g w a : wcnt (gw (exec g w a) w) = wcnt (gw g w).
  Proof. destruct a; simpl; now rewrite set_w_same. Qed.
  Lemma exec_glog g w a : glog (exec g w a) = glog g.
  Proof. now destruct a. Qed.
  Lemma exec_wdata g w a : wdata (gw (exec g w a) w) = acts_run [a] (wdata (gw g w)).
  Proof. destruct a; simpl; now rewrite set_w_same. Qed.

  Lemma acts_run_proper l s s' : (forall a, In a l -> act_proper a) -> eqS s s' ->
    eqS (acts_run l s) (acts_run l s').
  Proof.
    revert s s'. induction l as [|a l IH]; intros s s' H E; auto.
    assert (H' : forall b, In b l -> act_proper b) by (intros; apply H; now right).
    destruct a; simpl; auto. apply IH; auto. apply (H (ALocal f)); auto. now left.
  Qed.

  Lemma Inv_act n g w a : Inv n g -> In w workers ->
    nth_error (code w (wround (gw g w))) (wpos (gw g w)) = Some a ->
    Inv (1 + n) (exec g w a).
  Proof.
    intros I Hw Ha. destruct I as [I1 I2 I3 I4 I5 I6 I7 I8 I9].
    set (x := gw g w) in *.
    assert (Hp : (wpos x < length (code w (wround x)))%nat)
      by (apply nth_error_Some; congruence).
    assert (Post : posting x w).
    { destruct (I3 w Hw) as [H|(H & _)]; auto. fold x in H. lia. }
    pose proof Post as (P1 & P2 & P3).
    assert (Hf := firstn_S_snoc _ _ _ Ha).
    assert (Hdone : done_code (gw (exec g w a) w) w = done_code x w ++ [a]).
    { unfold done_code. rewrite exec_wround, exec_wpos. fold x. rewrite Hf. now rewrite app_assoc. }
    assert (Post' : posting (gw (exec g w a) w) w).
    { unfold posting. rewrite exec_wround, exec_wpos, exec_wcnt, exec_wdata. fold x.
      rewrite Hf, reqs_of_app, acts_run_app. split; auto. split.
      - destruct a as [s t h|d t f| |f]; simpl; rewrite set_w_same; simpl; fold x; rewrite P2; auto.
        + repeat f_equal. rewrite I5 by auto. fold x. unfold done_code. rewrite recvs_app.
          rewrite (recv_number _ _ _ _ _ _ Hw Ha). lia.
        + repeat f_equal. rewrite I4 by auto. fold x. unfold done_code. rewrite sends_app.
          rewrite (send_number _ _ _ _ _ _ Hw Ha). lia.
        + now rewrite app_nil_r.
      - apply acts_run_proper; auto. intros b [<-|[]].
        apply Hproper with w (wround x); auto. now apply nth_error_In with (wpos x). }
    constructor.
    - intros u Hu. destruct (Z.eq_dec u w) as [->|N].
      + rewrite exec_wround. now apply I1.
      + rewrite exec_gw_other by auto. now apply I1.
    - intros u Hu. destruct (Z.eq_dec u w) as [->|N].
      + rewrite exec_wround, exec_wpos. fold x. lia.
      + rewrite exec_gw_other by auto. now apply I2.
    - intros u Hu. destruct (Z.eq_dec u w) as [->|N]; [now left|].
      rewrite exec_gw_other by auto. now apply I3.
    - intros u d t Hu. destruct (Z.eq_dec u w) as [->|N].
      + rewrite Hdone, sends_app. pose proof (I4 w d t Hw) as E4. fold x in E4. rewrite <- E4.
        destruct a as [s' t' h|d' t' f| |f]; simpl; auto.
        unfold sends_in. simpl. destruct (d' =? d) eqn:E1, (t' =? t) eqn:E2; simpl; breflect; subst;
          try (rewrite set_c_other by congruence; lia).
        rewrite set_c_same, app_length. reflexivity.
      + rewrite exec_gw_other by auto. rewrite <- I4 by auto.
        destruct a as [s' t' h|d' t' f| |f]; simpl; auto. rewrite set_c_other; congruence.
    - intros u s t Hu. destruct (Z.eq_dec u w) as [->|N].
      + rewrite Hdone, recvs_app. pose proof (I5 w s t Hw) as E5. fold x in E5. rewrite <- E5.
        destruct a as [s' t' h|d' t' f| |f]; simpl; auto.
        unfold recvs_in. simpl. destruct (s' =? s) eqn:E1, (t' =? t) eqn:E2; simpl; breflect; subst;
          try (rewrite set_c_other by congruence; lia).
        rewrite set_c_same. lia.
      + rewrite exec_gw_other by auto. rewrite <- I5 by auto.
        destruct a as [s' t' h|d' t' f| |f]; simpl; auto. rewrite set_c_other; congruence.
    - intros u d t k m Hu Hk.
      destruct a as [s' t' h|d' t' f| |f]; simpl in Hk; try now apply I6.
      destruct (Z.eq_dec u w) as [->|N]; [|rewrite set_c_other in Hk by congruence; now apply I6].
      destruct (Z.eq_dec d d') as [->|N1]; [|rewrite set_c_other in Hk by congruence; now apply I6].
      destruct (Z.eq_dec t t') as [->|N2]; [|rewrite set_c_other in Hk by congruence; now apply I6].
      rewrite set_c_same in Hk.
      destruct (Nat.lt_ge_cases k (length (gsent g w d' t'))) as [L|L].
      { rewrite nth_error_app1 in Hk by auto. now apply I6. }
      rewrite nth_error_app2 in Hk by auto.
      destruct (k - length (gsent g w d' t'))%nat as [|j] eqn:Ek; [|destruct j; discriminate].
      simpl in Hk. inversion Hk; subst m; clear Hk.
      replace k with (length (gsent g w d' t')) by lia. rewrite I4 by auto. fold x.
      unfold done_code. rewrite sends_app, (send_number _ _ _ _ _ _ Hw Ha), Nat.add_0_r.
      assert (Hr : (wround x < length (prog w))%nat).
      { destruct (Nat.lt_ge_cases (wround x) (length (prog w))); auto.
        rewrite code_beyond in Hp by auto. simpl in Hp. lia. }
      assert (Em : msgs (wround x) w d' t' =
        f (acts_run (firstn (wpos x) (code w (wround x))) (sync (wround x) w)) ::
        tl (msgs (wround x) w d' t')).
      { unfold msgs. rewrite <- (firstn_skipn (wpos x) (code w (wround x))) at 1 3.
        rewrite (nth_skipn_cons _ _ _ Ha). rewrite pay_app.
        assert (El : pay d' t' (firstn (wpos x) (code w (wround x))) (sync (wround x) w) = []).
        { apply length_zero_iff_nil. rewrite pay_length. eapply send_number; eauto. }
        rewrite El. simpl. rewrite !Z.eqb_refl. reflexivity. }
      eexists. split; [eapply total_at; eauto|].
      assert (PA : act_proper (ASend d' t' f)).
      { apply Hproper with w (wround x); auto. now apply nth_error_In with (wpos x). }
      apply PA. fold x. exact P3.
    - now rewrite exec_glog.
    - intros u r i. rewrite exec_glog, I8. destruct (Z.eq_dec u w) as [->|N].
      + unfold consumed. rewrite exec_wround. fold x. split; intros [H1 [H2|(E & H2 & H3)]]; auto.
        * subst r. destruct (posting_not_consumed x w i Post (Nat.lt_le_incl _ _ Hp) H2 H3).
        * subst r. exfalso. apply (posting_not_consumed (gw (exec g w a) w) w i Post').
          -- rewrite exec_wround, exec_wpos. fold x. lia.
          -- rewrite exec_wround. exact H2.
          -- exact H3.
      + rewrite exec_gw_other by auto. reflexivity.
    - rewrite <- I9. apply sum_update with w; auto.
      + unfold progress. rewrite exec_wround, exec_wpos, exec_wcnt. fold x. lia.
      + intros u N. now rewrite exec_gw_other.
  Qed.

  (** A step of worker [w] that leaves the network and its program position
      alone. *)
  Lemma Inv_local n g w x' log' : Inv n g -> In w workers ->
    wround x' = wround (gw g w) -> wpos x' = wpos (gw g w) -> wcnt x' = (1 + wcnt (gw g w))%nat ->
    looping x' w ->
    NoDup log' ->
    (forall u r i, In (u, r, i) log' <->
       In u workers /\ consumed (if Z.eq_dec u w then x' else gw g u) u r i) ->
    Inv (1 + n) (mkgst (set_w (gw g) w x') (gsent g) (grecv g) log').
  Proof.
    intros I Hw E1 E2 E3 HL HN HC. destruct I as [I1 I2 I3 I4 I5 I6 I7 I8 I9].
    constructor; simpl.
    - intros u Hu. unfold set_w. destruct (Z.eq_dec u w) as [->|N]; auto. rewrite E1. auto.
    - intros u Hu. unfold set_w. destruct (Z.eq_dec u w) as [->|N]; auto. rewrite E1, E2. auto.
    - intros u Hu. unfold set_w. destruct (Z.eq_dec u w) as [->|N]; auto.
    - intros u d t Hu. unfold set_w. destruct (Z.eq_dec u w) as [->|N]; auto.
      unfold done_code. rewrite E1, E2. apply I4; auto.
    - intros u s t Hu. unfold set_w. destruct (Z.eq_dec u w) as [->|N]; auto.
      unfold done_code. rewrite E1, E2. apply I5; auto.
    - intros u d t k m Hu Hk. now apply I6.
    - auto.
    - intros u r i. rewrite HC. reflexivity.
    - rewrite <- I9. apply sum_update with w; auto.
      + rewrite set_w_same. unfold progress. rewrite E1, E2, E3. lia.
      + intros u N. now rewrite set_w_other.
  Qed.

  (** What a completion does to the local data. *)
  Lemma complete_eff n g w i q s : Inv n g -> In w workers -> looping (gw g w) w ->
    nth_error (wreqs (gw g w)) i = Some q -> complete g w q = Some s ->
    q <> QNull /\ eqS s (eff w (wround (gw g w)) q (wdata (gw g w))).
  Proof.
    intros I Hw HL Hi Hc. destruct I as [I1 I2 I3 I4 I5 I6 I7 I8 I9].
    destruct HL as (L1 & L2 & L3 & L4).
    destruct q as [|src t k h|d t k]; simpl in Hc; [discriminate| |].
    - split; [discriminate|].
      assert (Hq := masked_nth _ _ _ _ L2 Hi ltac:(discriminate)).
      apply nth_error_In in Hq. unfold reqs_of in Hq. apply in_flat_map in Hq as (a & Ha & Hq).
      destruct a as [src' t' h'|d' t' f'| |f']; simpl in Hq; try easy;
        destruct Hq as [Hq|[]]; try discriminate.
      injection Hq as -> -> Ek ->.
      set (r := wround (gw g w)) in *.
      assert (Hrec : (0 < recvs_in src t (code w r))%nat).
      { unfold recvs_in. apply filter_pos with (ARecv src t h); auto. simpl. now rewrite !Z.eqb_refl. }
      destruct Hmatch as (M1 & M2 & M3 & M4).
      pose proof (M3 w r src t Hw Hrec) as Hsrc.
      destruct (M4 src w r t Hsrc Hw) as [S1 S2].
      destruct (msgs_nonempty r src w t) as (m & Em); [lia|].
      assert (Hr : (r < length (prog src))%nat).
      { destruct (Nat.lt_ge_cases r (length (prog src))); auto.
        rewrite (code_beyond src r) in S1 by auto. unfold sends_in in S1. simpl in S1. lia. }
      destruct (nth_error (gsent g src w t) k) as [m'|] eqn:En; [|discriminate].
      simpl in Hc. injection Hc as <-.
      destruct (I6 src w t k m' Hsrc En) as (m'' & Et & Hm).
      assert (Ekk : k = sends_in w t (before src r)).
      { rewrite (channel_numbers src w t r Hsrc Hw). auto. }
      rewrite Ekk, (total_at src w t r m (tl (msgs r src w t)) Hsrc Hr Em) in Et.
      injection Et as <-. unfold eff. rewrite Em.
      assert (PA : act_proper (ARecv src t h)) by now apply Hproper with w r.
      apply PA; auto. reflexivity.
    - split; [discriminate|]. destruct (_ || _); [|discriminate]. injection Hc as <-. reflexivity.
  Qed.

  Lemma nth_error_upd_same (l : list req) i q : (i < length l)%nat -> nth_error (upd i q l) i = Some q.
  Proof. revert i. induction l; intros [|i] H; simpl in *; try lia; auto. apply IHl. lia. Qed.
  Lemma nth_error_upd_other (l : list req) i j q : i <> j -> nth_error (upd i q l) j = nth_error l j.
  Proof. revert i j. induction l; intros [|i] [|j] H; simpl in *; try lia; auto. Qed.

  Lemma phase_looping n g w : Inv n g -> In w workers ->
    wpos (gw g w) = length (code w (wround (gw g w))) -> looping (gw g w) w.
  Proof.
    intros I Hw E. destruct (inv_phase _ _ I w Hw) as [H|H]; auto. now apply posting_looping.
  Qed.

  Lemma looping_pairs x w : In w workers -> looping x w ->
    Forall req_proper (wreqs x) /\ ForallOrdPairs (req_commute w (wround x)) (wreqs x).
  Proof.
    intros Hw (L1 & L2 & L3 & L4). split.
    - eapply masked_Forall; [|exact L2|].
      + intros ? ? ? ? E. discriminate.
      + apply reqs_of_proper. intros a Ha. now apply Hproper with w (wround x).
    - eapply masked_pairs; [| |exact L2|].
      + intros q s. simpl. reflexivity.
      + intros q s. simpl. reflexivity.
      + apply reqs_of_commute. now apply Hcomm.
  Qed.

  Lemma Inv_step n g g' : Inv n g -> step g g' -> Inv (1 + n) g'.
  Proof.
    intros I Hs. destruct Hs as [g w a Hw Ha|g w i q s Hw Hp Hc Hi Hq|g w Hw Hp Hc Hn|g w Hw Hr Hp Hc].
    - now apply Inv_act.
    - pose proof (phase_looping _ _ _ I Hw Hp) as HL.
      destruct (complete_eff _ _ _ _ _ _ I Hw HL Hi Hq) as [Nq Es].
      pose proof HL as (L1 & L2 & L3 & L4).
      destruct (looping_pairs _ _ Hw HL) as [HP HO].
      assert (Hil : (i < length (wreqs (gw g w)))%nat) by (apply nth_error_Some; congruence).
      assert (Hreq : request_at w (wround (gw g w)) i).
      { exists q. split; auto. eapply masked_nth; eauto. }
      assert (Nlog : ~ In (w, wround (gw g w), i) (glog g)).
      { rewrite (inv_log_in _ _ I). intros [_ [[H _]|(_ & _ & H)]]; [lia|]. congruence. }
      apply Inv_local; auto.
      + split; [exact L1|]. simpl. split; [now apply masked_upd|]. split.
        * rewrite upd_length. pose proof (active_upd _ _ _ Hi Nq). lia.
        * transitivity (deliver w (wround (gw g w)) (wreqs (gw g w)) (wdata (gw g w))); [|exact L4].
          transitivity (deliver w (wround (gw g w)) (upd i QNull (wreqs (gw g w)))
                          (eff w (wround (gw g w)) q (wdata (gw g w)))).
          -- apply deliver_proper; auto.
             eapply masked_Forall; [|apply (masked_upd _ _ i (masked_refl _))|exact HP].
             intros ? ? ? ? E. discriminate.
          -- now apply deliver_one.
      + constructor; auto. apply (inv_log _ _ I).
      + intros u r j. split.
        * intros [E|H].
          -- injection E as <- <- <-. split; auto. destruct (Z.eq_dec w w); [|congruence].
             right. simpl. repeat split; auto. now apply nth_error_upd_same.
          -- apply (inv_log_in _ _ I) in H as [Hu H]. split; auto.
             destruct (Z.eq_dec u w) as [->|N]; auto.
             destruct H as [H|(E & H & H')]; [left; auto|right]. simpl. repeat split; auto.
             destruct (Nat.eq_dec i j) as [->|Nij]; [now apply nth_error_upd_same|].
             now rewrite nth_error_upd_other.
        * intros [Hu H]. destruct (Z.eq_dec u w) as [->|N].
          -- destruct H as [H|(E & H & H')]; simpl in *.
             ++ right. apply (inv_log_in _ _ I). split; auto. now left.
             ++ destruct (Nat.eq_dec i j) as [->|Nij]; [left; congruence|].
                right. apply (inv_log_in _ _ I). split; auto. right. repeat split; auto.
                now rewrite nth_error_upd_other in H'.
          -- right. apply (inv_log_in _ _ I). auto.
    - pose proof (phase_looping _ _ _ I Hw Hp) as HL. pose proof HL as (L1 & L2 & L3 & L4).
      apply Inv_local; auto.
      + split; auto. simpl. split; auto. split; auto.
        apply active_zero in Hn. lia.
      + apply (inv_log _ _ I).
      + intros u r i. rewrite (inv_log_in _ _ I).
        destruct (Z.eq_dec u w) as [->|N]; unfold consumed; simpl; reflexivity.
    - pose proof (phase_looping _ _ _ I Hw Hp) as HL. pose proof HL as (L1 & L2 & L3 & L4).
      assert (Hn : forallb is_null (wreqs (gw g w)) = true) by (apply active_zero; lia).
      rewrite deliver_nulls in L4 by auto.
      pose proof (looping_length _ _ HL) as Hlen.
      assert (Hdone : before w (1 + wround (gw g w)) ++ [] = done_code (gw g w) w).
      { unfold done_code. rewrite Hp, firstn_all, before_S by auto. now rewrite app_nil_r. }
      destruct I as [I1 I2 I3 I4 I5 I6 I7 I8 I9].
      constructor; cbn [gw gsent grecv glog].
      + intros u Hu. unfold set_w. destruct (Z.eq_dec u w) as [->|N]; [simpl; lia|auto].
      + intros u Hu. unfold set_w. destruct (Z.eq_dec u w) as [->|N]; [simpl; lia|auto].
      + intros u Hu. unfold set_w. destruct (Z.eq_dec u w) as [->|N]; auto.
        left. split; [reflexivity|]. split; [reflexivity|]. exact L4.
      + intros u d t Hu. unfold set_w. destruct (Z.eq_dec u w) as [->|N]; auto.
        unfold done_code. cbn [wround wpos firstn]. rewrite Hdone. now apply I4.
      + intros u s t Hu. unfold set_w. destruct (Z.eq_dec u w) as [->|N]; auto.
        unfold done_code. cbn [wround wpos firstn]. rewrite Hdone. now apply I5.
      + intros u d t k m Hu Hk. now apply I6.
      + auto.
      + intros u r i. rewrite I8. unfold set_w. destruct (Z.eq_dec u w) as [->|N]; [|reflexivity].
        unfold consumed. cbn [wround wreqs]. split; intros [_ H]; split; auto.
        * destruct H as [[H1 H2]|(E & H2 & H3)]; left; split; auto; lia.
        * destruct H as [[H1 H2]|(E & H2 & H3)]; [|destruct i; discriminate].
          destruct (Nat.eq_dec r (wround (gw g w))) as [->|Nr]; [|left; split; auto; lia].
          right. split; auto. split; auto.
          destruct H2 as (q & Eq & _).
          assert (Hi : (i < length (wreqs (gw g w)))%nat).
          { rewrite Hlen. apply nth_error_Some. congruence. }
          destruct (nth_error (wreqs (gw g w)) i) as [q'|] eqn:E'; [|apply nth_error_None in E'; lia].
          rewrite forallb_forall in Hn. apply nth_error_In in E'. specialize (Hn q' E').
          destruct q'; simpl in Hn; congruence.
      + rewrite <- I9. apply sum_update with w; auto.
        * rewrite set_w_same. unfold progress. cbn [wround wpos wcnt].
          rewrite work_S. unfold round_work. lia.
        * intros u N. now rewrite set_w_other.
  Qed.

  Lemma run_Inv n g : run n g -> Inv n g.
  Proof. induction 1; [apply Inv_init|eapply Inv_step; eauto]. Qed.

  (** *** Consequences *)

  (** No reachable state is stuck. *)
  Theorem p2p_progress n g : run n g -> ~ done g -> exists g', step g g'.
  Proof.
    intros Hrun Hnd. pose proof (run_Inv _ _ Hrun) as I.
    destruct Hmatch as (M1 & M2 & M3 & M4).
    (* a worker in the earliest round *)
    assert (Hmin : exists w, In w workers /\ (wround (gw g w) < length (prog w))%nat /\
              forall u, In u workers -> (wround (gw g w) <= wround (gw g u))%nat).
    { assert (Hex : exists w, In w workers /\ wround (gw g w) <> length (prog w)).
      { clear - Hnd. unfold done in Hnd. induction workers as [|a l IH].
        - exfalso. apply Hnd. easy.
        - destruct (Nat.eq_dec (wround (gw g a)) (length (prog a))) as [E|N].
          + destruct IH as (w & Hw & H).
            * intros H. apply Hnd. intros w [<-|Hw]; auto.
            * exists w. split; auto. now right.
          + exists a. split; auto. now left. }
      destruct Hex as (w0 & Hw0 & N0).
      assert (Hm : exists w, In w workers /\ forall u, In u workers -> (wround (gw g w) <= wround (gw g u))%nat).
      { clear - Hw0. revert w0 Hw0. induction workers as [|a l IH]; [easy|]. intros _ _.
        destruct l as [|b l'].
        - exists a. split; [now left|]. intros u [<-|[]]; lia.
        - destruct (IH b (or_introl eq_refl)) as (w & Hw & H).
          destruct (Nat.le_gt_cases (wround (gw g a)) (wround (gw g w))) as [L|L].
          + exists a. split; [now left|]. intros u [<-|Hu]; [lia|]. specialize (H u Hu). lia.
          + exists w. split; [now right|]. intros u [<-|Hu]; [lia|]. auto. }
      destruct Hm as (w & Hw & H). exists w. repeat split; auto.
      specialize (H w0 Hw0). pose proof (inv_round _ _ I w0 Hw0). rewrite (M1 w w0); auto. lia. }
    destruct Hmin as (w & Hw & Hr & Hle).
    set (r := wround (gw g w)) in *.
    (* if some worker of this round still has actions, it can act *)
    assert (Hpost : (exists u, In u workers /\ wround (gw g u) = r /\
                       (wpos (gw g u) < length (code u r))%nat) \/
                    (forall u, In u workers -> wround (gw g u) = r -> wpos (gw g u) = length (code u r))).
    { assert (D : forall l, (forall u, In u l -> In u workers) ->
        (exists u, In u l /\ wround (gw g u) = r /\ (wpos (gw g u) < length (code u r))%nat) \/
        (forall u, In u l -> wround (gw g u) = r -> wpos (gw g u) = length (code u r))).
      { induction l as [|a l IH]; intros Hl; [right; easy|].
        destruct IH as [(u & Hu & H)|H]; [intros; apply Hl; now right|left; exists u; split; auto; now right|].
        destruct (Nat.eq_dec (wround (gw g a)) r) as [E|N].
        - destruct (Nat.eq_dec (wpos (gw g a)) (length (code a r))) as [E'|N'].
          + right. intros u [<-|Hu]; auto.
          + left. exists a. split; [now left|]. split; auto.
            pose proof (inv_pos _ _ I a (Hl a (or_introl eq_refl))) as Hp. rewrite E in Hp. lia.
        - right. intros u [<-|Hu] E; auto. congruence. }
      apply D. auto. }
    destruct Hpost as [(u & Hu & Er & Hp)|Hall].
    { destruct (nth_error (code u r) (wpos (gw g u))) as [a|] eqn:Ea.
      - exists (exec g u a). apply step_act; auto. now rewrite Er.
      - apply nth_error_None in Ea. lia. }
    pose proof (Hall w Hw eq_refl) as Hp.
    pose proof (phase_looping _ _ _ I Hw Hp) as HL. pose proof HL as (L1 & L2 & L3 & L4).
    (* what the workers have posted *)
    assert (Hposted : forall u, In u workers ->
      (forall d t, (sends_in d t (before u (1 + r)) <= length (gsent g u d t))%nat) /\
      (forall s t, (recvs_in s t (before u (1 + r)) <= grecv g s u t)%nat)).
    { intros u Hu.
      assert (Hx : exists tail, done_code (gw g u) u = before u (1 + r) ++ tail).
      { destruct (Nat.eq_dec (wround (gw g u)) r) as [E|N].
        - exists []. unfold done_code. rewrite app_nil_r. rewrite E, (Hall u Hu E), firstn_all.
          symmetry. apply before_S. rewrite (M1 u w); auto.
        - pose proof (Hle u Hu) as Hge. unfold done_code.
          exists (concat (firstn (wround (gw g u) - (1 + r)) (skipn (1 + r) (prog u))) ++
                  firstn (wpos (gw g u)) (code u (wround (gw g u)))).
          rewrite app_assoc. f_equal. unfold before. rewrite <- concat_app. f_equal.
          replace (wround (gw g u)) with ((1 + r) + (wround (gw g u) - (1 + r)))%nat at 1 by lia.
          rewrite <- (firstn_skipn (1 + r) (prog u)) at 1.
          assert (El : length (firstn (1 + r) (prog u)) = (1 + r)%nat).
          { apply firstn_length_le. rewrite (M1 u w); auto. }
          rewrite firstn_app. rewrite El. rewrite firstn_firstn.
          f_equal; f_equal; lia. }
      destruct Hx as (tail & Hx). split; intros.
      - rewrite (inv_sent_len _ _ I) by auto. rewrite Hx, sends_app. lia.
      - rewrite (inv_recv_len _ _ I) by auto. rewrite Hx, recvs_app. lia. }
    destruct (Nat.eq_dec (wcnt (gw g w)) (length (wreqs (gw g w)))) as [Ec|Nc].
    { eexists. apply step_next with (w := w); auto. }
    destruct (forallb is_null (wreqs (gw g w))) eqn:En.
    { eexists. apply step_undef with (w := w); auto. lia. }
    assert (Hq : exists i q, nth_error (wreqs (gw g w)) i = Some q /\ q <> QNull).
    { clear - En. induction (wreqs (gw g w)) as [|a l IH]; simpl in En; [discriminate|].
      destruct (is_null a) eqn:Ea.
      - destruct IH as (i & q & H); auto. exists (Datatypes.S i), q. auto.
      - exists 0%nat, a. split; auto. intros ->. discriminate. }
    destruct Hq as (i & q & Hi & Nq).
    assert (Hready : exists s, complete g w q = Some s).
    { assert (Hin := masked_nth _ _ _ _ L2 Hi Nq). apply nth_error_In in Hin.
      unfold reqs_of in Hin. apply in_flat_map in Hin as (a & Ha & Hin). fold r in Ha, Hin.
      destruct a as [s t h|d t f| |f]; simpl in Hin; try easy; destruct Hin as [<-|[]]; [| |congruence].
      - assert (Hrec : (0 < recvs_in s t (code w r))%nat).
        { unfold recvs_in. apply filter_pos with (ARecv s t h); auto. simpl. now rewrite !Z.eqb_refl. }
        pose proof (M3 w r s t Hw Hrec) as Hs. destruct (M4 s w r t Hs Hw) as [S1 S2].
        destruct (Hposted s Hs) as [H _]. specialize (H w t).
        rewrite before_S, sends_app in H by (rewrite (M1 s w); auto).
        rewrite (channel_numbers s w t r Hs Hw) in H. simpl.
        destruct (nth_error (gsent g s w t) (recvs_in s t (before w r))) eqn:E; [eexists; reflexivity|].
        apply nth_error_None in E. lia.
      - assert (Hsnd : (0 < sends_in d t (code w r))%nat).
        { unfold sends_in. apply filter_pos with (ASend d t f); auto. simpl. now rewrite !Z.eqb_refl. }
        pose proof (M2 w r d t Hw Hsnd) as Hd. destruct (M4 w d r t Hw Hd) as [S1 S2].
        destruct (Hposted d Hd) as [_ H]. specialize (H w t).
        rewrite before_S, recvs_app in H by (rewrite (M1 d w); auto).
        rewrite <- (channel_numbers w d t r Hw Hd) in H. simpl.
        assert (E : (sends_in d t (before w r) <? grecv g w d t)%nat = true) by (apply Nat.ltb_lt; lia).
        rewrite E, orb_true_r. eauto. }
    destruct Hready as (s & Hs).
    eexists. apply step_wait with (w := w) (i := i) (q := q) (s := s); auto. lia.
  Qed.

  (** The length of every execution is bounded. *)
  Definition bound : nat := list_sum (map (fun w => work w (length (prog w))) workers).

  Lemma work_mono w r r' : (r <= r')%nat -> (work w r <= work w r')%nat.
  Proof. induction 1 as [|m _ IH]; auto. change (Datatypes.S m) with (1 + m)%nat. rewrite work_S. lia. Qed.

  Theorem p2p_bounded n g : run n g -> (n <= bound)%nat.
  Proof.
    intros Hrun. pose proof (run_Inv _ _ Hrun) as I. rewrite <- (inv_steps _ _ I). unfold bound.
    assert (H : forall w, In w workers -> (progress (gw g w) w <= work w (length (prog w)))%nat).
    { intros w Hw. unfold progress.
      pose proof (inv_round _ _ I w Hw) as Hr. pose proof (inv_pos _ _ I w Hw) as Hp.
      assert (Hc : (wcnt (gw g w) <= length (reqs_of w (wround (gw g w)) (code w (wround (gw g w)))))%nat).
      { destruct (inv_phase _ _ I w Hw) as [(P & _)|L]; [lia|].
        rewrite <- (looping_length _ _ L). destruct L as (_ & _ & L & _). lia. }
      destruct (Nat.eq_dec (wround (gw g w)) (length (prog w))) as [E|N].
      - rewrite E in *. rewrite code_beyond in Hp, Hc by lia. simpl in Hp, Hc. lia.
      - pose proof (work_mono w (1 + wround (gw g w)) (length (prog w)) ltac:(lia)).
        rewrite work_S in H. unfold round_work in H. lia. }
    clear - H. revert H. generalize workers as l. induction l as [|a l IH]; intros H; simpl; [lia|].
    pose proof (H a (or_introl eq_refl)). assert (forall w, In w l ->
      (progress (gw g w) w <= work w (length (prog w)))%nat) by (intros; apply H; now right).
    specialize (IH H1). lia.
  Qed.

  (** Every finished execution gives the lock-step result. *)
  Theorem p2p_result n g w : run n g -> done g -> In w workers ->
    eqS (wdata (gw g w)) (sync (length (prog w)) w).
  Proof.
    intros Hrun Hd Hw. pose proof (run_Inv _ _ Hrun) as I.
    pose proof (inv_phase _ _ I w Hw) as Hph. specialize (Hd w Hw).
    assert (Hc : code w (wround (gw g w)) = []) by (apply code_beyond; lia).
    assert (Es : sync (1 + length (prog w)) w = sync (length (prog w)) w).
    { rewrite sync_S. rewrite code_beyond by lia. reflexivity. }
    destruct Hph as [(P1 & P2 & P3)|(L1 & L2 & L3 & L4)].
    - rewrite Hc, Hd in P3. rewrite firstn_nil in P3. exact P3.
    - rewrite Hc in L2. simpl in L2. inversion L2 as [E|]. symmetry in H. rewrite H in L4.
      rewrite Hd, Es in L4. exact L4.
  Qed.

  (** [Waitany] returned every request of every round exactly once, and nothing
      else. *)
  Theorem p2p_log n g : run n g -> done g ->
    NoDup (glog g) /\
    forall w r i, In (w, r, i) (glog g) <-> In w workers /\ request_at w r i.
  Proof.
    intros Hrun Hd. pose proof (run_Inv _ _ Hrun) as I. split; [apply (inv_log _ _ I)|].
    intros w r i. rewrite (inv_log_in _ _ I). split.
    - intros [Hw [[_ H]|(_ & H & _)]]; auto.
    - intros [Hw H]. split; auto. left. split; auto. rewrite (Hd w Hw).
      destruct (Nat.lt_ge_cases r (length (prog w))) as [L|L]; auto.
      destruct H as (q & E & _). rewrite code_beyond in E by auto. destruct i; discriminate.
  Qed.
End P2P.
