(** Executions by computation: a scheduler that picks the next step. *)

From Verif Require Import Prelude P2P Rounds PropRepartition.

Section Schedule.
  Context {S M : Type}.
  Variable workers : list Z.
  Variable prog : Z -> list (list (@action S M)).
  Variable init : Z -> S.
  Variable eager : Z -> Z -> Z -> nat -> bool.

  (** The order in which a worker's requests are tried. *)
  Variable prefs : Z -> list nat.

  Definition take (g : @gst S M) (w : Z) (i : nat) : option gst :=
    match nth_error (wreqs (gw g w)) i with
    | Some q => option_map (fun s =>
        mkgst (set_w (gw g) w (mkwst (wround (gw g w)) (wpos (gw g w)) (upd i QNull (wreqs (gw g w))) (1 + wcnt (gw g w)) s))
              (gsent g) (grecv g) ((w, wround (gw g w), i) :: glog g)) (complete eager g w q)
    | None => None
    end.

  Fixpoint first_of {A} (f : A -> option (@gst S M)) (l : list A) : option gst :=
    match l with
    | [] => None
    | a :: l' => match f a with Some g => Some g | None => first_of f l' end
    end.

  Definition move (g : @gst S M) (w : Z) : option gst :=
    match nth_error (code prog w (wround (gw g w))) (wpos (gw g w)) with
    | Some a => Some (exec g w a)
    | None =>
        if Nat.eqb (wpos (gw g w)) (length (code prog w (wround (gw g w)))) then
          if Nat.ltb (wcnt (gw g w)) (length (wreqs (gw g w))) then
            if forallb is_null (wreqs (gw g w)) then
              Some (mkgst (set_w (gw g) w (mkwst (wround (gw g w)) (wpos (gw g w)) (wreqs (gw g w)) (1 + wcnt (gw g w)) (wdata (gw g w))))
                          (gsent g) (grecv g) (glog g))
            else first_of (take g w) (prefs w)
          else if Nat.ltb (wround (gw g w)) (length (prog w)) then
            if Nat.eqb (wcnt (gw g w)) (length (wreqs (gw g w))) then
              Some (mkgst (set_w (gw g) w (mkwst (1 + wround (gw g w)) 0 [] 0 (wdata (gw g w)))) (gsent g) (grecv g) (glog g))
            else None
          else None
        else None
    end.

  Fixpoint play (fuel : nat) (g : @gst S M) : gst :=
    match fuel with
    | O => g
    | Datatypes.S n => match first_of (move g) workers with Some g' => play n g' | None => g end
    end.

  Lemma first_of_some {A} (f : A -> option (@gst S M)) l g : first_of f l = Some g -> exists a, In a l /\ f a = Some g.
  Proof.
    induction l as [|a l IH]; cbn [first_of]; [discriminate|]. destruct (f a) as [g'|] eqn:E.
    - intros [= <-]. exists a. split; [now left|auto].
    - intros H. destruct (IH H) as (b & Hb & Eb). exists b. split; [now right|auto].
  Qed.

  Lemma move_step g w g' : In w workers -> move g w = Some g' -> step workers prog eager g g'.
  Proof.
    intros Hw. unfold move. destruct (nth_error (code prog w (wround (gw g w))) (wpos (gw g w))) as [a|] eqn:Ea.
    - intros [= <-]. now apply step_act.
    - destruct (Nat.eqb_spec (wpos (gw g w)) (length (code prog w (wround (gw g w))))) as [Ep|]; [|discriminate].
      destruct (Nat.ltb_spec (wcnt (gw g w)) (length (wreqs (gw g w)))) as [Hc|Hc].
      + destruct (forallb is_null (wreqs (gw g w))) eqn:En.
        * intros [= <-]. now apply step_undef.
        * intros H. apply first_of_some in H as (i & _ & H). unfold take in H.
          destruct (nth_error (wreqs (gw g w)) i) as [q|] eqn:Eq; [|discriminate].
          destruct (complete eager g w q) as [s|] eqn:Es; [|discriminate]. injection H as <-. eapply step_wait; eauto.
      + destruct (Nat.ltb_spec (wround (gw g w)) (length (prog w))) as [Hr|]; [|discriminate].
        destruct (Nat.eqb_spec (wcnt (gw g w)) (length (wreqs (gw g w)))) as [Ec|]; [|discriminate].
        intros [= <-]. now apply step_next.
  Qed.

  Lemma play_run fuel : forall n g, run workers prog init eager n g -> exists n', run workers prog init eager n' (play fuel g).
  Proof.
    induction fuel as [|fuel IH]; intros n g Hr; cbn [play]; [eauto|].
    destruct (first_of (move g) workers) as [g'|] eqn:E; [|eauto].
    apply first_of_some in E as (w & Hw & E). eapply IH. econstructor; [exact Hr|]. eapply move_step; eauto.
  Qed.
End Schedule.

(** The scheduler's execution, when it ends. *)
Definition played {S M} (world : list Z) (rounds : list (@round S M)) (init : Z -> S) eager prefs (fuel : nat) : @gst S M :=
  play world (rounds_prog rounds) eager prefs fuel (ginit init).

Lemma played_ends {S M} world (rounds : list (@round S M)) init eager prefs fuel :
  forallb (fun w => Nat.eqb (wround (gw (played world rounds init eager prefs fuel) w)) (length rounds)) world = true ->
  ends world rounds init eager (played world rounds init eager prefs fuel).
Proof.
  intros H. destruct (play_run world (rounds_prog rounds) init eager prefs fuel 0 (ginit init) (run_init _ _ _ _)) as [n Hn].
  exists n. split; [exact Hn|]. intros w Hw. rewrite forallb_forall in H. specialize (H w Hw). apply Nat.eqb_eq in H.
  unfold rounds_prog. rewrite map_length. exact H.
Qed.
