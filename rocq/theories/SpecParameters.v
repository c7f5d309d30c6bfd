(** Who holds the trainable parameters of a layer.  Nothing of the model is used
    here. *)

From Coq Require Import String.
From Verif Require Import Prelude SpecIndex.

(** [held v]: names and shapes of the tensors that [parameters()] yields on worker
    [v].  The parameter [name] of the sequential layer has the shape [s].  Every
    element of it belongs to exactly one worker, and what a worker holds under this
    name are elements of it: a box that begins at [origin v]. *)
Definition owned_once (held : Z -> list (string * list Z)) (name : string) (s : list Z) : Prop :=
  exists origin : Z -> list Z,
  (forall g, valid_index s g -> exists! v, exists sh, In (name, sh) (held v) /\ in_box (origin v) (vadd (origin v) sh) g) /\
  (forall v sh, In (name, sh) (held v) -> length (origin v) = length sh /\ forall g, in_box (origin v) (vadd (origin v) sh) g -> valid_index s g).

(** The workers hold the parameters [all] of the sequential layer and no others, and
    no worker lists one twice. *)
Definition parameters_are (held : Z -> list (string * list Z)) (all : list (string * list Z)) : Prop :=
  (forall name s, In (name, s) all -> owned_once held name s) /\
  (forall v, NoDup (map fst (held v))) /\
  (forall v name sh, In (name, sh) (held v) -> In name (map fst all)).
